# Formal model of kmantel/graph-scheduler in Rocq (Coq 8.16.1)

The development is in `rocq/theories` (203 files, no dependencies beyond Coq's standard
library). `properties.jsonl` lists the properties (C01, C02, ...), `MANIFEST.json` maps them to
theorems, `seeded/LOG.jsonl` records the experiments with wrong programs. This file says what is
modelled, how each property is proved, what was found wrong, and what has to be trusted.

## 1. The model

Every definition of a model file cites the lines of `/repo/src/graph_scheduler` it mirrors, and
says where it simplifies.

Conventions:

* Exceptions are values (`Base.res`, `exn`); a call that raises returns the state it leaves behind.
* Python dicts are association lists in insertion order, or total functions with an explicit key
  test. Python sets are duplicate-free lists; their order stands for the arbitrary iteration
  order, and theorems quantify over all orders.
* Nodes, execution ids and condition objects are natural numbers (hashable values with decidable
  equality). Execution id 0 is Python's `None`.
* Where object identity matters (structural conditions, condition sets, caches) there is an
  explicit heap of objects and references into it.
* Times are exact rationals.
* Loops whose termination is not structural take fuel and return a distinguished error when it
  runs out; the theorems either exclude that result or prove that it does not occur.

| file | models |
|---|---|
| `Base.v` | results, exceptions, set-as-list operations, association maps |
| `Graph.v` | dependency dicts, `clone_graph`, `get_receivers`, ancestors/descendants, networkx conversion, `toposort`, queue indices |
| `TimeModel.v` | `TimeScale`, `Time`, `TimeHistoryTree`, `Clock` |
| `AbsTime.v` | units and parsing of times, gcd of intervals, fixed points, the interval of a consideration set execution |
| `Cond.v` | every basic `Condition` class, `is_satisfied`, owners, absolute-time attributes |
| `Run.v` | `Scheduler.run` as a resumable generator (`resume`), contexts per execution id, counts |
| `GSC.v` | `Operation`, all graph structure conditions over a heap of set objects |
| `CondSet.v` | `ConditionSet` with object identity and the `conditions` cache |
| `Copying.v` | `add_condition_set` with a ConditionSet as argument: another one, or the set itself (live lists) |
| `Sched.v` | construction, push/pop of graphs, `_handle_modified_structural_conditions`, `add_condition*`, `remove_condition`, end-to-end schedulers |
| `TermConds.v` | parsing, merging and assigning termination conditions |
| `Alias.v` | `set_time_scale_alias`, `remove_time_scale_alias`, aliased attributes of `Time` and `SimpleTime` |
| `Prune.v` | `prune_unused_args`, `call_with_pruned_args`, Python's call protocol, what a condition's function receives |
| `Kwargs.v` | signatures and stored arguments of every condition class, `is_satisfied` with the keyword arguments of `run`, constructors of `Condition`, `All`, `Any` |
| `Logs.v` | `enable_debug_logging`, `disable_debug_logging` and the part of Python's logging they use |
| `Cache.v` | `HashableDict`, `cached_graph_function`, `lru_cache` |
| `Tests.v` | the model run on examples from the project's test suite (tests of the model, not proofs of properties) |

`Spec*.v` are small specifications that do not use the model's helpers (paths, counting over
histories, set algebra, divisibility). `Properties*.v` hold the property theorems: each one is
closed by a lemma proved elsewhere, is followed by `Print Assumptions`, and has an `Example`
(`ex_Cnn`) next to it showing that a concrete case meets its hypotheses. All other files are proofs.

The run loop is a state machine: a generator is a value (program counter and local variables),
and `resume` executes up to the next `yield`, `return` or `raise`. Between two resumptions the
environment may do whatever the theorem at hand does not exclude: add conditions, resume other
generators, change external state. User-defined conditions (`Condition(func)`, `While`, `Until`
and so on) are arbitrary functions of everything a condition can observe and of an external
state supplied at each resumption; they may also raise.

## 2. Properties: what is modelled and how it is proved

| property | model | specification | proof |
|---|---|---|---|
| C01, C02 yielded sets and levels | `Run.v`, `Graph.v` | `SpecRun.v`, `SpecGraph.v` | invariant of `resume` (position in the queue, levels yielded in this pass), lifted to all prefixes of runs (`RunProofs`, `RunHist`, `YieldFacts`) |
| C03, C04 soundness and maximality | `Run.v`, `Cond.v` | `SpecRun.v`, `SpecCond.v` | invariant of the do-while loop; termination by counting the nodes not chosen yet (`PureFacts`, `StopFacts`) |
| C05 order inside consideration sets | `Run.v`, `Sched.v` | `SpecOrder.v` | confluence of the level loop for monotone conditions, then a simulation between runs with permuted levels (`OrderFacts`, `OrderRun`, `OrderSched`); counterexamples |
| C06, C07, C08, C14 counts and history | `Run.v` | `SpecRun.v` | invariants relating counters to functions of the execution history (`RunFacts`, `RunProps`) |
| C09, C10, C11 termination, progress, idle passes | `Run.v` | `SpecRun.v` | invariants of `resume`; measure on the number of levels left (`StopFacts`) |
| C12 clock | `Run.v`, `TimeModel.v` | `SpecRun.v`, `SpecTime.v` | invariants of `resume` and increment histories |
| C13 default runs | `Run.v`, `Sched.v` | `SpecDefault.v` | induction over passes and levels, and over the number of runs (`DefaultFacts`, `DefaultRun`) |
| C15, C16, C17, C53, C54 execution ids, abandoned runs, exceptions | `Run.v` | `SpecIds.v` | frame lemmas: `resume` reads and writes only its own context; lifted to interleavings (`RunIds`, `RunCrash`, `IdFacts`) |
| C18, C19, C55 meaning of conditions | `Cond.v`, `TimeModel.v`, `Thresh.v` | `SpecCond.v`, `SpecTime.v`, `SpecThresh.v` | evaluation against functions counting in histories (`CondProofs`, `CondFacts`, `ThreshFacts`) |
| C20, C21 NWhen and connectives | `Cond.v` | `SpecCond.v` | induction over condition terms and sequences of evaluations |
| C22 default conditions | `Cond.v`, `Run.v` | `SpecCond.v` | invariant of `counts_useable` |
| C23, C24, C25 consideration queue | `Graph.v` | `SpecGraph.v` | toposort against paths and longest chains (`TopoProofs`) |
| C26-C32 structural conditions | `GSC.v` | `SpecGSC.v` | heap invariants: fresh, unaliased result objects (`HeapFacts`, `GSCFacts`, `GSCModify`, `GSCProps`, `GSCThms`); the order of cycles in the pruning loop is arbitrary, termination by counting edges |
| C33, C34 graph of a scheduler | `Sched.v`, `GSC.v`, `CondSet.v` | `SpecSched.v` | invariant of the graph stack over all histories of calls (`SchedFacts`, `SchedThms`, `QueueFacts`) |
| C35, C36, C37 condition sets | `CondSet.v` | `SpecSched.v` | refinement to a map and a log (`CondSetFacts`, `QueueFacts`) |
| C38, C39, C40 time tree | `TimeModel.v` | `SpecTime.v` | the tree as a function of the history of increments (`TimeProofs`) |
| C41 aliases | `Alias.v` | `SpecAlias.v`, `SpecStrings.v` | `AliasFacts`, `StringFacts` |
| C42, C43, C44, C45 absolute time | `AbsTime.v`, `Run.v` | `SpecAbs.v` | gcd over rationals, then an invariant of the absolute run (`AbsFacts`, `AbsRun`, `AbsExamples`) |
| C46-C49 graph utilities | `Graph.v` | `SpecGraph.v` | `GraphFacts` |
| C50 pruned calls | `Prune.v` | `SpecPrune.v` | `PruneFacts` |
| C51 caches | `Cache.v` | `SpecCache.v` | invariant over histories of calls and mutations (`CacheFacts`) |
| C52 termination conditions | `TermConds.v` | `SpecTerm.v` | `TermFacts` |
| C56 changes during a run | `Sched.v`, `Run.v` | `SpecChange.v` | the invariants of C01-C14 with a queue that may differ at every yield (`RunChange`, `ChangeFacts`) |
| C57 single edges | `Sched.v`, `GSC.v` | `SpecSched.v` | from the theorem on the graph stack (C33), with fresh condition objects (`EdgeFacts`) |
| C58 While, WhenFinished, starts | `Cond.v` | `SpecCond.v`, `SpecTime.v` | evaluation (`FinishFacts`) |
| C59 rate of EveryNCalls | `Run.v`, `Cond.v` | `SpecRate.v` | invariant: useable count of b with respect to d plus n times the runs of b is the runs of d, and is below n whenever b had its turn (`RateFacts`) |
| C60 passes in which a node runs | `Run.v`, `Cond.v` | `SpecPass.v` | invariant: the count of b in the pass is 0 before its turn and 1 or 0 after it as its condition came out; a pass given up in the middle cannot be followed by a yield (`PassFacts`) |
| C61 operations given by name and per node | `OpArgs.v` | `SpecOpArgs.v` | induction over the dict; `modify_graph` from arguments equals `modify_graph` of the condition with the operations they stand for (`OpArgsFacts`) |
| C62 suitable conditions never raise | `Run.v`, `Sched.v` | `SpecSafe.v` | by cases on the condition, evaluation succeeds in every view that a run can have; invariant of the run loop (`SafeFacts`) |
| C63 bounded runs return | `Run.v`, `Sched.v` | `SpecLive.v` | the number of yields to come, (n - pass) * sets per pass, decreases with every resumption (`LiveFacts`), on top of C62 |
| C64 a node that is due runs | `Run.v`, `Cond.v` | `SpecTurn.v` | the invariant of C60 carries the view in which the condition of b was last false, with the counts at that moment compared to the present ones (`PassFacts`, `TurnFacts`) |
| C65 runs end once the nodes are due | `Run.v`, `Sched.v`, `Cond.v` | `SpecDue.v` | induction on the derivation of `due` with C59, C60 and C64; the run cannot yield a set in pass p since the termination condition was met at the resumption before, and each yield lowers the number of sets left before pass p (`DueFacts`) |
| C66 consecutive runs | `Run.v`, `TimeModel.v`, `Cond.v` | `SpecSession.v` | induction on the history of an execution id: each event extends the history of the clock by a known piece, cut into sequences and updates as the events are; the nodes by C60, relative to the clock's history at the start of the run (`SessionFacts`) |
| C67 absolute time in standard mode | `Run.v`, `Cond.v`, `AbsTime.v` | `SpecTimed.v` | invariant of a run: consideration set, pass and time after j yields; a termination condition that once holds goes on holding lets no pass end early (`TimedFacts`) |
| C68 arguments of time conditions | `TimeArgs.v` | `SpecTimeArgs.v` | case analysis on the arguments, for every unit registry; C42 for the reduction to whole units (`TimeArgsFacts`) |
| C69 repositioning and cycles | `GSC.v` (networkx's enumeration of cycles: any function meeting `lists_cycles`) | `SpecAcyclic.v` | in the last pass of pruning nothing changed, so every cycle left has no removable edge; from there a cycle through the owner, or one of original edges, is contradictory; reconnecting adds no cycle (`AcyclicFacts`); the loops over cycles and edges refine cutting one cycle after the other (`PrunedFacts`) |
| C70 keyword arguments of run | `Kwargs.v` (every class's function with its signature, called through C50's call protocol) | `SpecKwargs.v`: `plain` forgets the keywords of built-in conditions | induction on the condition; the names decide what pruning keeps (`KwargsFacts`) |
| C71 arguments at creation | `Kwargs.v` (`new_condition`, `object_call`, `composite_args`) | in the statements | case analysis on the names |
| C72 chains of EveryNCalls | `Run.v`, `Cond.v` | `SpecChain.v` | C59 for each link, floors of quotients compose; with C60 for the first node (`ChainFacts`) |
| C73 debug logging | `Logs.v` (with the part of Python's logging it relies on) | `SpecLogs.v` | induction over the calls |
| C74 absolute mode | `Run.v` (`start`, `setup_absolute`), `Cond.v` (`is_absolute`) | `SpecAbsMode.v` | the history of the clock with absolute time switched off |
| C75 custom graph structure conditions | `GSC.v` (`custom`, `custom_process`; the function is any function on graphs with a heap of sets) | `SpecCustom.v` | the clone consists of new set objects (`HeapFacts`); for schedulers the theorem on the graph stack (C33, C57) |
| C76 default termination | `Run.v`, `Sched.v` | `SpecEnd.v` | the counts at the return (C06) and the termination condition that held there (C09); nodes that cannot run by C01 and C03 (`EndFacts`) |
| C77 changed yielded sets | `Run.v`, `Cond.v` | `SpecTamper.v` | two runs in step, one of a user who changes execution_list between resumptions; conditions without JustRan do not read it (`TamperFacts`) |
| C78 histories of set-up calls | `Sched.v`, `CondSet.v`, `Run.v` | `SpecRegistered.v`, `SpecSched.v` | by C33, C35 and C37 both schedulers have the same graph, queue, conditions and owners of the objects in use; two runs in step (`AgreeFacts`, `RegisteredFacts`) |
| C79 parts of a graph | `Run.v`, `Cond.v`, `Sched.v` | `SpecPart.v` | a run seen from the part is a run of a small machine that knows only the part's counts and passes, which is deterministic; whatever the rest does leaves that machine where it is (`PartFacts`) |
| C80 the same run again | `Run.v`, `Cond.v`, `Sched.v` | `SpecAgain.v` | two runs in step: counts up to the update and the clock since its start agree, everything older may differ; a run that returns ends at such a beginning again (`AgainFacts`) |
| C81 termination conditions | `Run.v`, `Cond.v`, `Sched.v` | `SpecHalt.v` | one resumption is the same for all termination conditions that do not hold at its last check, and returns for those that do; from this one course for all runs from a state, by induction on the resumptions, and the comparison of runs by induction on the course (`HaltFacts`) |
| C82 names of nodes | `Graph.v`, `GSC.v`, `Cond.v`, `CondSet.v`, `Run.v`, `Sched.v` | `SpecRename.v` | every function of the model (graphs, toposort, structure conditions, conditions, ConditionSet, Scheduler, runs) commutes with an injective renaming of the nodes (`RenameGraph`, `RenameEval`, `RenameRun`, `RenameSched`); user functions are rewritten along (`user_follows`, `custom_follows`); networkx's cycle enumeration and the iteration order of sets are assumed not to look at the names (`cycles_follow`, `order_follows`) |
| C83 evaluations of conditions | `Cond.v`, `Run.v` | `SpecCalls.v` | user functions count their calls in a place k of the user memory (`tallies`, `keeps`); a potential (`turns`, `looks`) is followed through rounds, levels and passes (`CallsFacts`, `CallsRun`, `CallsThms`, `CallsEnds`) |
| C84 reconnecting | `GSC.v` | `SpecReconnect.v` | invariant of the loop over sender/receiver pairs (`ReconnectFacts`): edges only grow, so what a step establishes stays; the run with and without the option agree up to that loop (`modify_two`) |
| C85 warnings | `Warn.v`: for each function of the model that warns, the list of its warnings as data (not their text) | `SpecWarn.v` | what is registered after a history (C27, C79), edges before and after a condition (C29, C30, C84), cyclic = no topological order (C26) |
| C86 exceptions of conditions | `Cond.v` | `SpecRaise.v` (`raises`: one rule per class and exception) | case analysis over the classes, induction over lists of dependencies, indices and components (`RaiseFacts`); times by C38 |
| C87 records over a session | `Run.v`, `Sched.v` | `SpecLedger.v` (`after_all`, `received`, `failures`: one step per public call) | what each part of `run` adds to list and counts, for every outcome (`LedgerFacts`: inner loop, outer loop, start, end, failed synchronisation), then induction over the calls; `_refuted` for independence of generators and for absolute time with another id |
| C88 clock moves forward over a session | `TimeModel.v`, `Run.v`, `Sched.v` | `SpecForward.v` (`earlier`: smaller at the coarsest scale that differs; `units_sound`) | every part of `run` and every call takes the clock along a chain of increments and interval changes (`ForwardFacts.goes`), each of which goes forward; induction over the calls; `_refuted` for sets of different generators |
| C89 condition sets as arguments | `CondSet.v`, `Copying.v` | `SpecCopy.v` (`used`: calls and looks; `joined`, `first_of`) | invariant that the cached dict is the one that would be built (`CopyFacts.sane`), what adding lists and dicts does, induction over owners; the live list is modelled with an iterator position and fuel, and no fuel suffices for the endless case; `_refuted` for the order of application |
| C90 conditions that settle | `Cond.v`, `Run.v`, `Sched.v` | `SpecLasting.v` (`settles`, `says`) | counts and clock over a session from C87 and C88; induction over the condition with a direction that Not reverses; a run with such a condition ends at its next test, and comes there without another yield (`LastingFacts`); `_refuted` for finer scales and exact counts |
| C91 limits on calls | `Cond.v`, `Run.v`, `Sched.v` | `SpecLimit.v` (`limits`, `stays_limited`, `within`) | the count is below the limit when the condition is satisfied, and an accepted node raises it by one; over rounds, passes and sessions by induction (`LimitFacts`); occurrences from C87; `_refuted` for limits per run and on other nodes |

## 3. Findings

Where the code does not have a property that its documentation or a user would expect, the
theorem with suffix `_refuted` proves a counterexample on the unchanged model.

1. `remove_condition(owner)` returns None although it removed a condition, returns the condition
   although it was not registered, and raises IndexError for an owner with one structural
   condition (C36).
2. Operations that make two nodes share one sender set object can lose a required edge (C29).
3. Applying structural conditions is not atomic: conditions applied before the failing one stay
   in the graph (C34).
4. `default_execution_id` is not used: `run()` of a scheduler with another default raises
   SchedulerError (C16).
5. In absolute time mode a run with a non-default execution id raises KeyError (C17).
6. Self-loops are not reported as cycles, and a default run on one never ends
   (`C25_self_loop_refuted`).
7. An empty graph with an absolute termination condition loops without yielding (C10).
8. An abandoned generator leaves the clock in the middle of an environment state update; the next
   run goes on from there (C53).
9. Default conditions are fixed by the graph at the first run (C22).
10. The documented string keys of `termination_conds` raise RuntimeError, after changing the
    caller's dict, in assignments and in `run`, and in the constructor except for the names of
    the two time scales that have a default (C52).
11. The chosen set depends on the iteration order for `BeforeNCalls`, for `EveryNCalls` within one
    consideration set, for `NWhen`, with exceptions, and in exact time mode (C05).
12. A condition object added to two owners evaluates for the last owner only (C37), and moving a
    structural condition to another owner is not noticed (C33).
13. An exception in a condition leaves the counts of nodes that were never yielded (C54).
14. A string or a non-iterable as value of a dependency dict is split or rejected by the
    constructor although `clone_graph` accepts it (C46).
15. `8 days` is stored as 675 kibiseconds, so the interval need not divide it (C42).
16. A termination condition that is true only in the middle of a pass ends the pass but not
    the run (C09); so the sets yielded by two runs that differ only in their termination
    conditions can differ in the middle (`C81_mid_pass_refuted`).
17. `TimeInterval` with an exclusive start may never be visited (C43); an inclusive end without
    a start makes the clock begin at the end (C43); `TimeTermination` as the only absolute
    condition executes nothing (C44).
18. Side effects of conditions are shared between execution ids (C15).
19. Removing the alias RUN deletes `AllHaveRun`; a second alias of a scale leaks the first; names with
    empty segments or of members fail half way; an alias called like a property of SimpleTime
    replaces it; aliases of PASS and LIFE cannot be read from SimpleTime (C41).
20. Pruning drops positional arguments for parameters with defaults, gives positional-only
    parameters nothing, and counts required keyword-only parameters as positional;
    `Condition(func, execution_id=...)` can never be evaluated (C50).
21. Objects returned by cached graph functions are shared; changing one changes later results.
    In-place changes of sets with colliding hashes return stale values (C51).
22. The position in the consideration queue is kept while the queue changes: adding conditions
    during a run makes nodes run twice in a pass or be passed over. Removing a node's condition
    during a run raises KeyError (C56).
23. A termination condition that is true only in the middle of a pass makes a node with
    `EveryNCalls` miss its turn (C59), and one with `Always` miss a pass (C60).
24. The arguments `absolute`, `absolute_interval`, `absolute_enabled` of `Time` are ignored (C41).
25. Misspelt operation names and dicts without some of the nodes are accepted by the constructors of
    structural conditions and fail when the graph is needed; a dict given by the caller is changed
    in place, also if the call is rejected (C61).
26. Conditions that can never be evaluated are accepted by their constructors (`JustRan` before anything
    ran, `AtConsiderationSetExecution(n, PASS)`, `EveryNPasses(0)`, `AfterNCallsCombined` without n,
    nodes that are not in the graph) and end the run with one of five exceptions (C62).
27. `counts_total[...][ENVIRONMENT_SEQUENCE]` is never reset: after `end_environment_sequence` it still
    counts the executions of earlier sequences, so `AfterNCalls(n, ENVIRONMENT_SEQUENCE)` is met at
    once in the new sequence (C66).
28. In standard mode with two or more consideration sets, `TimeInterval(repeat=r, start=s)` is not satisfied
    "every r at/after s" (documentation): the repetition is counted from time 0, and `start` only excludes
    earlier times.  With repeat 2 ms and start 3 ms it is never satisfied in the run of C67_start_refuted.
29. `TimeInterval.__init__` compares `start > end` before the arguments are parsed: strings character by
    character (`'9ms'`, `'10ms'` is rejected, `'10ms'`, `'9ms'` accepted and then never satisfied), a number
    with a string is a TypeError, a number other than 0 with a quantity a ValueError (C68).
30. Repositioning conditions with the default arguments can make an acyclic graph cyclic, after which
    `run` raises SchedulerError: AfterNode(A) for the last node of a chain A, B, C, D; WithNode(A) for the
    last node of a chain A, B, C; BeforeNodes(A, C) for a node outside a chain A, B, C
    (`C69_after_refuted`, `C69_with_refuted`, `C69_before_refuted`).
31. `ConditionSet.__setitem__` passes two arguments to `remove_condition`, which takes one: assigning a
    condition to an owner that has structural conditions raises TypeError (`C35_setitem_refuted`).
32. A keyword argument of `run` called like a parameter of a built-in condition reaches that condition:
    `run(n=3)` makes `BeforePass`, `AfterNCalls`, `NWhen` ... raise TypeError at every evaluation, and
    silently replaces n of `AfterNCallsCombined`; `run(threshold=...)` replaces every threshold
    (`C70_clash_refuted`, `C70_override_refuted`).
33. Keyword arguments of a `Condition` are set as attributes of it: `args`, `kwargs`, `owner`, `is_satisfied`,
    `is_absolute`, `_owner` change what it does (`C71_attributes_refuted`).
34. `All(a=cond)` and `All(a=[...], b=[...])` raise TypeError (`tuple(*[...])` takes one iterable), although
    the constructor accepts keyword arguments; the same for `Any` (`C71_composite_refuted`).
35. `disable_debug_logging` does not undo `enable_debug_logging`: the package's messages no longer reach the
    handlers of the root logger (`C73_undone_refuted`); `enable_debug_logging` displays no debug messages if the
    package's logger has a handler or a level of its own (`C73_configured_refuted`).

36. `Not` and `NWhen` hide absolute conditions: they do not switch on absolute time. A node with
    `Not(TimeInterval(end=t))` never runs, unless some other condition makes the run keep absolute time
    (`C74_negation`, `C74_mode_refuted`).
37. `TimeInterval(repeat=...)` without start as a termination condition makes every run raise UnboundLocalError: it has no
    owner, hence no offset (`C43_termination_refuted`).
38. The graph returned by a custom graph structure condition is not checked. If it lacks a node, run raises KeyError, or
    goes on without the node if that has a condition; if it has a new node, run raises KeyError (`C75_validated_refuted`).
39. `TimeHistoryTree(max_depth=TimeScale.CONSIDERATION_SET_EXECUTION)` raises ValueError (`C38_max_depth_refuted`).
40. run yields the set object it keeps in execution_list, so a user who changes a set they received changes the history (`C77_execution_list_refuted`), and the schedule too if a node has JustRan (`C77_just_ran_refuted`).
41. JustRan and conditions on numbers of consideration set executions see unrelated parts of the graph: adding a disconnected pair of nodes stops a node with JustRan(a) from running (`C79_beside_refuted`).
42. Two runs in succession differ with NWhen, whose count per execution id is never reset (`C80_nwhen_refuted`), and with skip_environment_state_update_time_increment=True: passes are then counted from where the previous run ended, so a termination condition such as AfterNPasses(2) ends the second run before its first set (`C80_skip_refuted`).
43. A condition of a node that is false is evaluated again in the same pass when another node of its consideration set was added (lines 939-962: the set is gone through until nothing changes), so a user function with side effects is called a number of times that depends on the other nodes of the set (`C83_once_refuted`); termination functions are called once more than there are consideration sets in a pass, twice in a row at its beginning (`C83_end_exactly`).
44. reconnect_non_subject_receivers adds an edge from a sender to a receiver of the owner although there is another path between them; the documentation says "if there is no longer a path" (`C84_path_refuted`). In a graph with a cycle through the owner the added edge can lead from a node to itself, in spite of remove_new_self_referential_edges (`C84_self_refuted`).
45. A condition that depends on its owner is only reported if the owner is its first dependency, and a Threshold never, since its dependency is passed as a keyword (`C85_own_dependency_refuted`, condition.py 1047-1053).
46. When several structural conditions are applied at once, the warning about a cycle names the last of them, which may be the one that removes the cycle (`C85_blames_refuted`, scheduler.py 1122).
47. With a cyclic base graph, every later structural condition is said to create the cycle, also one that only removes edges (`C85_creates_refuted`).
48. In exact time mode a warning says that structural conditions have no effect. They do: default conditions are made from the modified graph, and a modified graph with a cycle is refused (`C85_no_effect_refuted`).
49. Two generators of the same execution id disturb each other: starting and resuming the second one resets and spends the counts the first one depends on, so the first one skips executions it would have yielded alone (C87_independent_refuted).
50. Sets yielded by different generators of one execution id may carry the same time: the time is advanced when a generator is resumed after a yield, not when it yields, so a second generator started in between yields at the time of the first one (C88_apart_refuted).
51. The order of application of structural conditions is lost when a ConditionSet is given to a Scheduler or to another ConditionSet: `add_condition_set` goes through it owner by owner, owners with basic conditions first. With `B: RemoveEdgeFrom(A)`, then `A: AddEdgeTo(B)` and `A: Always()` the scheduler applies the second before the first and has another graph (C89_order_refuted).
52. `cs.add_condition_set(cs)` never ends if an owner has two structural conditions and no basic one: `conditions` hands out the list that `add_condition` appends to (C89_itself_endless).

Observed while reading, consistent with the model, without a theorem of its own: the message of an operations
conflict is built with `join` and fails (TypeError instead of ConditionError) for nodes that are not strings.

## 4. Trusted base

* Coq's kernel (8.16.1), including the virtual machine used by `vm_compute` in examples and
  refutations.
* Axioms: none. `Print Assumptions` beneath every property theorem prints "Closed under the
  global context". Loading the standard library also loads `Coq.ssr.ssrunder`, which declares seven
  opaque constants as module parameters (`Under_rel.Over_rel`, `Under_rel_from_rel`, `over_rel`,
  `over_rel_done`, `Under_rel`, `Under_relE`, `under_rel_done`); no theorem depends on them.
* The correspondence between the model and the Python source, established by reading: the code
  was not run. `Tests.v` runs the model on cases of the project's own tests and compares with the
  results those tests assert.
* The behaviour of Python and libraries as written in the model: dict and set semantics, the
  call protocol (`Prune.py_call`), `functools.lru_cache`, networkx's `simple_cycles` (only: it
  returns the cycles in some order), pint's `to_compact` for times as a choice of unit (`AbsTime.v`).

Not modelled: the wording of warnings (which ones are given, and when, is in `Warn.v`) and log messages, `repr`, docstrings and their rewriting, pydot output (`output_graph_image`),
floating point rounding (rationals are exact), dates as absolute times, threads and re-entrant
generators, user code mutating private attributes. (Users changing yielded sets: only in C77; the
other theorems are about users who leave execution_list alone.)

## 5. Wrong programs

`tools/mutate.py` copies the development, edits one definition of the model the way a bug would,
rebuilds and reports which theorems fail; `tools/log_mutants.py` appends the result to
`seeded/LOG.jsonl`. A mutant under which no property theorem fails shows a theorem that is too
weak; the field `tightened` names the theorems strengthened because of it.

## 6. Tools

`tools/gen_properties.py` writes `properties.jsonl`; `tools/gen_manifest.py` writes `MANIFEST.json` from
the names of the theorems and `tools/notes.json`.
