{"id": "C01", "title": "Firing a transition moves exactly the tokens its arcs say", "statement": "For an ordinary (normal-arc) Petri net without parallel arcs, semantics.execute(t, net, m) returns None exactly when some input place of t holds fewer tokens than its arc weight (or t is not in the net); otherwise the returned marking has, for every place, the old count minus the input weight plus the output weight, and the input marking is not modified. The returned marking contains no negative count and no explicit zero entry, so marking equality stays meaningful.", "quantifier": "every net, transition, arc weights and marking", "why_tests_cant": "the claim ranges over unboundedly many nets, weights and markings", "anchors": ["pm4py/objects/petri_net/semantics.py: is_enabled, execute, weak_execute, enabled_transitions", "pm4py/objects/petri_net/obj.py: Marking"]}
{"id": "C02", "title": "Parallel input arcs never drive a place negative", "statement": "Executing an enabled transition never produces a negative number of tokens in a place, also if the net contains two arcs from the same place to the same transition.", "quantifier": "every net, including nets with parallel arcs built by add_arc_from_to", "why_tests_cant": "unbounded nets and markings; a test suite has no net with parallel arcs", "anchors": ["pm4py/objects/petri_net/semantics.py: is_enabled, execute", "pm4py/objects/petri_net/utils/petri_utils.py: add_arc_from_to"]}
{"id": "C03", "title": "Marking arithmetic is multiset arithmetic", "statement": "Markings without zero entries form a partially ordered commutative monoid under + and <=: + is commutative and associative, (m + n) - n == m, m <= n iff n == m + k for some marking k, == is equality of token counts for every place, <= is a partial order.", "quantifier": "all pairs/triples of markings", "why_tests_cant": "algebraic laws over an infinite carrier", "anchors": ["pm4py/objects/petri_net/obj.py: Marking.__eq__, __le__, __add__, __sub__"]}
{"id": "C04", "title": "Marking equation", "statement": "After any firing sequence from m0, the token count of every place equals the initial count plus the sum over the transitions of (incidence matrix entry * number of firings); for nets with unit arc weights that matrix is the one built by incidence_matrix.construct.", "quantifier": "every net, every finite firing sequence", "why_tests_cant": "firing sequences are unbounded", "anchors": ["pm4py/objects/petri_net/utils/incidence_matrix.py: IncidenceMatrix.__construct_matrix", "pm4py/objects/petri_net/semantics.py: execute"]}
{"id": "C05", "title": "More tokens never disable behaviour", "statement": "In a net with normal arcs, if a sequence of transitions can fire from marking m and reaches m', then the same sequence can fire from m + k and reaches m' + k.", "quantifier": "every net, marking, extra marking and firing sequence", "why_tests_cant": "unbounded sequences", "anchors": ["pm4py/objects/petri_net/semantics.py: is_enabled, execute"]}
{"id": "C06", "title": "The reachability graph contains exactly the reachable markings and firings", "statement": "When marking-flow exploration finishes (no timeout, no state limit), its set of states is exactly the set of markings reachable by firing sequences from the initial marking, and its edges are exactly the triples (m, t, m') with t enabled in m and m' the result of firing t; exploration finishes whenever the reachable set is finite.", "quantifier": "every net and initial marking", "why_tests_cant": "reachable sets and nets are unbounded", "anchors": ["pm4py/objects/petri_net/utils/reachability_graph.py: marking_flow_petri, construct_reachability_graph_from_flow"]}
{"id": "C07", "title": "Inhibitor and reset arcs", "statement": "In inhibitor/reset nets a transition is enabled iff each normal input place holds at least the arc weight and each inhibitor-connected place is empty; firing it leaves inhibitor places untouched, empties reset places (before producing), and moves tokens along normal arcs only.", "quantifier": "every inhibitor/reset net and marking", "why_tests_cant": "unbounded nets and markings", "anchors": ["pm4py/objects/petri_net/inhibitor_reset/semantics.py"]}
{"id": "C08", "title": "A trace net accepts exactly its trace", "statement": "construct_trace_net(trace) yields a net whose only complete firing sequence (from the initial to the final marking) spells the activities of the trace, in order.", "quantifier": "every trace (any length, repeated activities)", "why_tests_cant": "unbounded traces", "anchors": ["pm4py/objects/petri_net/utils/petri_utils.py: construct_trace_net"]}
{"id": "C09", "title": "Sub-marking test", "statement": "is_sub_marking(sub, m) is true iff sub assigns to every place at most the number of tokens m assigns.", "quantifier": "all pairs of markings", "why_tests_cant": "infinite domain", "anchors": ["pm4py/objects/petri_net/utils/petri_utils.py: is_sub_marking"]}
{"id": "C10", "title": "Synchronous product = alignments", "statement": "The complete firing sequences of the synchronous product of a trace net and an accepting net are exactly the alignments: projecting on the log component gives the trace, projecting on the model component gives a complete firing sequence of the model, a synchronous move pairs equal labels; and every such pairing is a run of the product. Holds for nets with unit arc weights.", "quantifier": "every trace and every accepting net", "why_tests_cant": "unbounded nets, traces and runs", "anchors": ["pm4py/objects/petri_net/utils/synchronous_product.py: construct, construct_cost_aware"]}
{"id": "C11", "title": "Computed alignments are alignments", "statement": "For nets with unit arc weights, any alignment returned by the Dijkstra variant is a valid alignment of the trace: its log projection spells the trace, its model projection is a firing sequence from the initial to the final marking, and the reported cost is the sum of its move costs.", "quantifier": "every net, trace, non-negative cost function", "why_tests_cant": "search trees are unbounded", "anchors": ["pm4py/algo/conformance/alignments/petri_net/variants/dijkstra_no_heuristics.py: __search", "pm4py/objects/petri_net/utils/align_utils.py: __reconstruct_alignment"]}
{"id": "C12", "title": "Computed alignments are optimal", "statement": "For nets with unit arc weights, the cost of the alignment returned by the Dijkstra variant is minimal among all alignments of the trace and the accepting net.", "quantifier": "every net, trace, non-negative cost function", "why_tests_cant": "optimality compares with infinitely many alternative runs", "anchors": ["pm4py/algo/conformance/alignments/petri_net/variants/dijkstra_no_heuristics.py: __search"]}
{"id": "C13", "title": "No alignment is reported only if none exists", "statement": "If the Dijkstra search exhausts its queue (returns None without hitting a time limit) then the final marking of the product is unreachable, i.e. no alignment exists; if the product has finitely many reachable markings the search terminates.", "quantifier": "every net and trace", "why_tests_cant": "unreachability is a universally quantified statement", "anchors": ["pm4py/algo/conformance/alignments/petri_net/variants/dijkstra_no_heuristics.py: __search"]}
{"id": "C14", "title": "A* with the state-equation heuristic is optimal", "statement": "When the LP oracle returns optimal solutions of the state equation, the A* variant (lazy heuristic recomputation, derived solution vectors, closed set without reopening) returns an alignment whose cost is minimal.", "quantifier": "every product net, cost function and every optimal-LP oracle", "why_tests_cant": "optimality over all runs and all oracles", "anchors": ["pm4py/algo/conformance/alignments/petri_net/variants/state_equation_a_star.py: __search", "pm4py/objects/petri_net/utils/align_utils.py: __derive_heuristic, __trust_solution, __compute_exact_heuristic_new_version"]}
{"id": "C15", "title": "Alignment fitness", "statement": "The fitness attached to an alignment lies in [0,1] and, with the default costs, equals 1 exactly when the alignment has neither log moves nor visible model moves, i.e. when the trace is in the language of the model (given fewer than 10000 silent moves and a non-empty worst case).", "quantifier": "every cost/worst-case pair produced by the aligner", "why_tests_cant": "numeric range over all inputs", "anchors": ["pm4py/algo/conformance/alignments/petri_net/algorithm.py: apply_trace, apply_log"]}
{"id": "C16", "title": "Aligning a log is aligning each trace", "statement": "apply_log, which aligns one representative per variant, returns for the i-th trace the same result as apply_trace on that trace.", "quantifier": "every log", "why_tests_cant": "any number of traces/variants in any order", "anchors": ["pm4py/algo/conformance/alignments/petri_net/algorithm.py: __get_variants_structure, __form_alignments, apply_log"]}
{"id": "C17", "title": "Levenshtein distance", "statement": "The edit-distance routine returns the minimal number of insertions/deletions/substitutions turning one sequence into the other; hence it is symmetric, zero iff equal and satisfies the triangle inequality.", "quantifier": "all pairs/triples of sequences", "why_tests_cant": "infinite domain", "anchors": ["pm4py/util/string_distance.py: levenshtein", "pm4py/objects/petri_net/utils/align_utils.py: levenshtein"]}
{"id": "C18", "title": "Folding a process tree keeps its language", "statement": "process_tree.utils.generic.fold returns a tree with the same language as its input, for every tree whose operators have children and whose loops have a do and at least one redo child; the result contains no collapsible operator. The sorting applied to discovered trees (tree_sort) keeps the language too.", "quantifier": "every process tree", "why_tests_cant": "infinite set of trees, each with an infinite language", "anchors": ["pm4py/objects/process_tree/utils/generic.py: fold, _fold, reduce_tau_leafs"]}
{"id": "C19", "title": "Process tree to Petri net conversion keeps the language", "statement": "The visible traces of the accepting Petri net obtained from a process tree (to_petri_net.apply, including the reduction of silent transitions in any order) are exactly the traces of the tree, for every tree whose operators have children and whose loops have a do and at least one redo child; the conversion terminates.", "quantifier": "every process tree (sequence, choice, parallel, loop, leaves)", "why_tests_cant": "infinite set of trees and runs", "anchors": ["pm4py/objects/conversion/process_tree/variants/to_petri_net.py: recursively_add_tree, apply"]}
{"id": "C20", "title": "Printing and parsing process trees round-trips", "statement": "parse(str(tree)) is the tree again, for every tree whose root is an operator or a silent leaf, whose operators have children and whose labels contain no quote, carriage return or newline; hence different such trees print differently.", "quantifier": "every such tree", "why_tests_cant": "infinite domain", "anchors": ["pm4py/objects/process_tree/utils/generic.py: parse, parse_recursive", "pm4py/objects/process_tree/obj.py: to_string"]}
{"id": "C21", "title": "Binary process trees", "statement": "process_tree_to_binary_process_tree returns a tree in which every operator has at most two children (exactly two if every operator of the input has at least two) and whose language is that of its input, for trees without interleaving operators.", "quantifier": "every process tree", "why_tests_cant": "infinite domain", "anchors": ["pm4py/objects/process_tree/utils/generic.py: process_tree_to_binary_process_tree"]}
{"id": "C22", "title": "Discovered footprints of a process tree are those of its language", "statement": "For a process tree built from sequence, choice, parallel and binary loop, with distinct activity labels and a visible leaf below every operator, footprints discovery terminates whatever the iteration order of the internal sets, and returns exactly the facts of the language of the tree: start and end activities, sequence and parallel pairs (their union is the directly-follows relation), activities, always-happening activities, the skippable flag and the length of the shortest trace.", "quantifier": "every such process tree, every set iteration order", "why_tests_cant": "infinite languages; hash-dependent set orders", "anchors": ["pm4py/algo/discovery/footprints/tree/variants/bottomup.py:apply", "pm4py/objects/process_tree/utils/bottomup.py:get_bottomup_nodes,get_min_trace_length"]}
{"id": "C23", "title": "Inductive Miner discovers a fitting model", "statement": "Every trace of the log is in the language of the process tree returned by the Inductive Miner (variant IM, event log input), whatever the iteration order of the Python sets, the order in which parallel candidates are evaluated, and with the strict sequence cut and the fall-throughs enabled or disabled.", "quantifier": "every event log", "why_tests_cant": "all logs over all alphabets; depends on every cut and fall-through", "anchors": ["pm4py/algo/discovery/inductive/variants/im.py", "pm4py/algo/discovery/inductive/cuts/*.py", "pm4py/algo/discovery/inductive/fall_through/*.py", "pm4py/algo/discovery/inductive/base_case/*.py"]}
{"id": "C24", "title": "Inductive Miner terminates", "statement": "The Inductive Miner (variant IM) returns a tree for every event log: the recursion ends and none of the exceptions of its cuts, projections and fall-throughs can occur.", "quantifier": "every event log", "why_tests_cant": "termination is a property of all inputs", "anchors": ["pm4py/algo/discovery/inductive/variants/abc.py: apply, _recurse", "pm4py/algo/discovery/inductive/cuts/*.py"]}
{"id": "C25", "title": "Inductive Miner uses each activity exactly once", "statement": "The visible leaves of the tree discovered by IM (after fold and tree_sort) are exactly the activities of the log, each occurring once.", "quantifier": "every event log", "why_tests_cant": "all logs", "anchors": ["pm4py/algo/discovery/inductive/variants/im.py", "pm4py/algo/discovery/inductive/cuts/*.py"]}
{"id": "C26", "title": "Streaming DFG equals batch DFG", "statement": "After any finite stream of events the live DFG (activities, edges, start and end activities) equals the DFG discovered in batch from the log obtained by grouping the received events by case in arrival order, whatever the interleaving of the cases.", "quantifier": "every event stream and interleaving", "why_tests_cant": "interleavings are unbounded", "anchors": ["pm4py/streaming/algo/discovery/dfg/variants/frequency.py", "pm4py/algo/discovery/dfg/variants/native.py"]}
{"id": "C27", "title": "DFG counts are conserved", "statement": "For the DFG of a log: the count of an edge (a,b) is the number of positions where b directly follows a (with window w: follows at distance w; with keep_once_per_case: the number of cases); for every activity, start count + incoming edge counts = number of events with that activity = end count + outgoing edge counts; the edge counts sum to (#events - #non-empty traces).", "quantifier": "every log", "why_tests_cant": "all logs", "anchors": ["pm4py/algo/discovery/dfg/variants/native.py", "pm4py/statistics/start_activities/log/get.py", "pm4py/statistics/end_activities/log/get.py"]}
{"id": "C28", "title": "Live event stream delivers every event exactly once and stop() drains it", "statement": "For every schedule of the producers, the dispatcher, the pool threads and the caller of stop(), on a stream that is started before it is stopped: no event is handed to an observer twice, and when stop() has returned every accepted event has been received exactly once by every registered observer; after stop() has been called and if no more events are appended, every schedule ends with stop() returned and the dispatcher thread finished; the dispatcher never dies. With a pool of one thread the events are received in the order of append. (Findings: with the default pool of six threads two events can be received in the wrong order; stop() before start() blocks for ever if an event is pending; starting a stopped stream kills the dispatcher with the lock held.)", "quantifier": "every schedule, number of observers, pool size and sequence of events", "why_tests_cant": "thread schedules cannot be enumerated by tests", "anchors": ["pm4py/streaming/stream/live_event_stream.py"]}
{"id": "C29", "title": "Thread-safe dictionary operations never self-deadlock", "statement": "Every operation of ThreadSafeDict except values() and itervalues() returns, with the lock released, when called by a thread not holding its lock. (Finding: values() and itervalues() always deadlock, because iterating over the dictionary takes the lock again.)", "quantifier": "every operation and state", "why_tests_cant": "scheduling/locking behaviour", "anchors": ["pm4py/streaming/util/dictio/versions/thread_safe.py"]}
{"id": "C30", "title": "Streaming footprints conformance counts every deviation", "statement": "For every stream of events and every case whose first received event has an activity known to the footprints, the deviation counter of the case equals the number of positions of the received trace that deviate (an activity unknown to the footprints, a start activity that is not allowed, or a disallowed directly-follows pair of known activities, unknown ones being skipped). In general the counter equals the number of deviations from the first known activity on, and the reported status tells exactly whether such a deviation exists or the last known activity is not an end activity.", "quantifier": "every stream of events of every interleaving of cases, every footprints object", "why_tests_cant": "unbounded streams", "anchors": ["pm4py/streaming/algo/conformance/footprints/variants/classic.py"]}
{"id": "C31", "title": "Streaming temporal-profile conformance equals batch", "statement": "After any stream the reported deviations of each case are, as a multiset (in the order of discovery), the ones the batch temporal-profile check reports on the received prefix of that case.", "quantifier": "every stream and interleaving of cases, every profile and zeta, any number type (so also for floating point)", "why_tests_cant": "unbounded streams", "anchors": ["pm4py/streaming/algo/conformance/temporal/variants/classic.py", "pm4py/algo/conformance/temporal_profile/variants/log.py"]}
{"id": "C32", "title": "A noise-free log skeleton states the relations of its log and fits it", "statement": "At noise threshold 0 the discovered equivalence, never-together and directly-follows relations and the activity frequencies are exactly those of the log; always-after / always-before contain every relation that holds in the log, and no other when no trace repeats an activity. Every trace of the log fits the discovered skeleton with fitness 1: for all constraints when no trace repeats an activity, for all but always-after / always-before on every log. A larger noise threshold only adds relations; with a threshold, equivalence and directly-follows are kept exactly if they hold for that share of the occurrences, and the kept frequencies cover that share of the traces. Dataframes give the same result at noise 0.", "quantifier": "every event log, every noise threshold where mentioned", "why_tests_cant": "all logs", "anchors": ["pm4py/algo/discovery/log_skeleton/variants/classic.py", "pm4py/algo/discovery/log_skeleton/trace_skel.py", "pm4py/algo/conformance/log_skeleton/variants/classic.py"]}
{"id": "C33", "title": "Log skeleton conformance", "statement": "Conformance checking against any skeleton whose frequency sets are not empty returns a result; the fitness lies in [0,1], is 1 exactly when the trace is reported fit, exactly when no deviation is listed, exactly when the trace satisfies every considered constraint. Checking a log equals checking each trace.", "quantifier": "every skeleton, every trace / log, every choice of considered constraints", "why_tests_cant": "all inputs", "anchors": ["pm4py/algo/conformance/log_skeleton/variants/classic.py"]}
{"id": "C34", "title": "Declare checking agrees with the templates", "statement": "DECLARE conformance checking. For the templates existence, absence, exactly-one, init, responded existence, co-existence, non-co-existence, response, precedence, alternate succession and chain succession, and every trace and model (two distinct activities in the binary templates), a constraint of the model is reported as deviation if and only if the trace violates the declared meaning of the template (every a is eventually followed by a b, ...). A succession constraint is reported iff it is violated or neither activity occurs; a chain response that is not reported holds. An answer is given for every model with at least one constraint (with response constraints if there are alternate response ones); the fitness is in [0,1], and it is 1 iff the trace is declared fit iff nothing is reported, for the models without non-co-existence and alternate-response constraints.", "quantifier": "every DECLARE model and every finite trace", "why_tests_cant": "all models and traces", "anchors": ["pm4py/algo/conformance/declare/variants/classic.py", "pm4py/algo/discovery/declare/variants/classic.py"]}
{"id": "C35", "title": "Transitive closure of POWL orders", "statement": "BinaryRelation.add_transitive_edges terminates and turns the relation into its transitive closure: the least transitive relation containing it.", "quantifier": "every finite relation", "why_tests_cant": "all relations of all sizes", "anchors": ["pm4py/objects/powl/BinaryRelation.py: add_transitive_edges"]}
{"id": "C36", "title": "Transitive reduction of POWL orders", "statement": "For a strict partial order get_transitive_reduction returns a sub-relation with the same transitive closure and no removable edge (the least relation with that closure).", "quantifier": "every finite strict partial order", "why_tests_cant": "all orders of all sizes", "anchors": ["pm4py/objects/powl/BinaryRelation.py: get_transitive_reduction"]}
{"id": "C37", "title": "DFG filtering keeps the graph connected", "statement": "For every well-formed DFG (dictionaries whose activities are all counted, no activity named like the artificial start/end nodes) in which every activity lies on a path from a start to an end activity, and every non-negative percentage / threshold: the activity-percentage, path-percentage and dependency-threshold filters return a well-formed DFG whose entries (pairs, start, end activities, counts) are all unchanged entries of the input, in which every activity still lies on a path from a start to an end activity; an activity (path) with fewer than (N-1)*p+1 activities (paths) ranked above it is kept; links with at least the wanted dependency are kept; keep_all_activities keeps all activities. The filters 'to an activity', 'from an activity' and 'containing an activity' terminate and return exactly the part of the graph on paths from a start activity to (the first visit of) the activity, from (the last visit of) it to an end activity, and connected to it. get_successors and get_predecessors return exactly the transitively reachable activities.", "quantifier": "every DFG in which every activity is on a path from start to end, every percentage", "why_tests_cant": "all graphs", "anchors": ["pm4py/algo/filtering/dfg/dfg_filtering.py:filter_dfg_on_activities_percentage", "pm4py/algo/filtering/dfg/dfg_filtering.py:filter_dfg_on_paths_percentage", "pm4py/algo/filtering/dfg/dfg_filtering.py:filter_dfg_keep_connected", "pm4py/algo/filtering/dfg/dfg_filtering.py:filter_dfg_to_activity", "pm4py/algo/filtering/dfg/dfg_filtering.py:filter_dfg_from_activity", "pm4py/algo/filtering/dfg/dfg_filtering.py:filter_dfg_contain_activity", "pm4py/objects/dfg/utils/dfg_utils.py:get_successors"]}
{"id": "C38", "title": "Case filters keep exactly the described cases", "statement": "Each case-level filter on event logs (start/end activities, eventually follows, A next B next C, four eyes, different persons, paths, path performance, rework, repetitions, event attribute values, trace attributes, numeric attribute, case size, number of cases, case performance, timestamps contained/intersecting/attribute in timeframe) returns exactly the cases satisfying its documented condition, unmodified and in order; it raises no exception on a log whose events have the attributes it reads; and its positive and negative mode split the log (for start/end/attribute filters: the cases with events; for four eyes: the cases in which both activities were performed by somebody). Scope: eventually follows without timestamp bounds; numeric filter with distinct case identifiers.", "quantifier": "every log and every filter argument", "why_tests_cant": "all logs and all arguments", "anchors": ["pm4py/algo/filtering/log/start_activities/start_activities_filter.py: apply", "pm4py/algo/filtering/log/end_activities/end_activities_filter.py: apply", "pm4py/algo/filtering/log/ltl/ltl_checker.py", "pm4py/algo/filtering/log/paths/paths_filter.py", "pm4py/algo/filtering/log/rework/rework_filter.py", "pm4py/algo/filtering/log/attr_value_repetition/filter.py", "pm4py/algo/filtering/log/attributes/attributes_filter.py: apply, apply_trace_attribute, apply_numeric", "pm4py/algo/filtering/log/cases/case_filter.py", "pm4py/algo/filtering/log/timestamp/timestamp_filter.py"]}
{"id": "C39", "title": "Temporal profile of a log is consistent with its own log", "statement": "The discovered temporal profile has an entry exactly for the pairs of activities that have a recorded delay; its average lies between the minimum and maximum recorded delay and its standard deviation is at least 0. A log whose delays per pair are constant never deviates from its own profile, and no log deviates from its own profile for zeta when every pair has n recorded delays with (n-1)^2 <= zeta^2 * n (for the default zeta 6: at most 37 recordings per pair).", "quantifier": "every log with real-valued timestamps, every zeta >= 0 (calendar time, no business hours, exact arithmetic)", "why_tests_cant": "all logs", "anchors": ["pm4py/algo/discovery/temporal_profile/variants/log.py", "pm4py/algo/conformance/temporal_profile/variants/log.py"]}
{"id": "C40", "title": "Minimum self-distance", "statement": "The minimum self distance reported by pm4py.get_minimum_self_distances for an activity is the least number of events strictly between two consecutive occurrences of it in a trace, an activity is absent exactly if it never occurs twice in a trace, and the reported witnesses are exactly the activities seen between two occurrences at that distance. (The unused variant in util/compression/util.py subtracts the other way round: refuted.)", "quantifier": "every log", "why_tests_cant": "all logs", "anchors": ["pm4py/algo/discovery/minimum_self_distance/variants/log.py", "pm4py/util/compression/util.py: msd"]}
{"id": "C41", "title": "Closest / farthest string search", "statement": "argmin_levenshtein(s, l) returns an element of l with minimal edit distance to s (None only for an empty list) although it stops early on length differences; argmax_levenshtein(s, l) returns an element with maximal distance unless every element equals s (then None).", "quantifier": "every string and every list of strings", "why_tests_cant": "the early exit must be sound for all lists", "anchors": ["pm4py/util/string_distance.py: argmin_levenshtein, argmax_levenshtein"]}
{"id": "C42", "title": "Process trees convert to sound nets", "statement": "The Petri net obtained from a process tree is a safe and sound workflow net: source without incoming, sink without outgoing arcs, every reachable marking is 1-bounded and can reach the final marking, a token in the sink means the final marking is reached, and (if no OR operator has a single child) every transition can fire in some reachable marking.", "quantifier": "every process tree (operators non-empty, loops with redo child), every reachable marking, every order of the reduction rules", "why_tests_cant": "trees and reachable markings are unbounded; soundness quantifies over all executions", "anchors": ["pm4py/objects/conversion/process_tree/variants/to_petri_net.py: apply, recursively_add_tree", "pm4py/objects/petri_net/utils/reduction.py: apply_simple_reduction"]}
{"id": "C43", "title": "Editing POWL orders", "statement": "Removing an edge with remove_edge_without_violating_transitivity terminates and yields a strict partial order contained in the old one and without that edge; get_start_nodes / get_end_nodes return exactly the nodes without predecessor / successor.", "quantifier": "every strict partial order on any number of nodes and every pair of nodes", "why_tests_cant": "the loop deletes further edges in an order-dependent way; the claim is for all relations", "anchors": ["pm4py/objects/powl/BinaryRelation.py: remove_edge_without_violating_transitivity, get_start_nodes, get_end_nodes"]}
{"id": "C44", "title": "Vertex frequencies of a DFG", "statement": "get_vertex_frequencies on the directly-follows graph of a log returns for each vertex the number of its occurrences in the log plus the number of cases starting with it minus the number of cases ending with it; hence the documented value (number of occurrences) exactly for the vertices that start as many cases as they end. (For the other vertices the documentation is false of the code: it adds the outgoing instead of the incoming counts to the start counts.)", "quantifier": "every log", "why_tests_cant": "all logs", "anchors": ["pm4py/objects/dfg/util.py: get_vertex_frequencies"]}
{"id": "C45", "title": "DFG of variants and of compressed logs", "statement": "The DFG computed from the variants of a log (used by the Inductive Miner) and from the compressed log has the same edge, start and end counts as the DFG of the log itself.", "quantifier": "every log", "why_tests_cant": "all logs", "anchors": ["pm4py/util/compression/util.py: discover_dfg, discover_dfg_uvcl, get_variants"]}
{"id": "C46", "title": "Inductive Miner infrequent (IMf) is total and conservative", "statement": "IMf returns a tree for every event log and every noise threshold; its labels are activities of the log; with a threshold <= 0 it returns the tree that IM returns.", "quantifier": "every event log, every noise threshold, every iteration order of the Python sets", "why_tests_cant": "all logs and thresholds; termination", "anchors": ["pm4py/algo/discovery/inductive/variants/imf.py: IMFUVCL.apply, __filter_dfg_noise", "pm4py/algo/discovery/inductive/algorithm.py: apply"]}
{"id": "C47", "title": "Variant filters keep exactly the cases of the selected variants", "statement": "On an event log in which every event carries the activity attribute: the variants filter returns exactly the cases (unmodified, in log order within a variant) whose sequence of activities is in the admitted list (or, in negative mode, is not), and its two modes together return every case exactly once; filter_variants_top_k returns the cases of k variants (all, if there are fewer) such that no left-out variant is more frequent than a kept one; the minimum (maximum) coverage filters return the cases of exactly the variants having at least (at most) the given share of the cases; for 0 < p <= 1 and a non-empty log, filter_log_variants_percentage returns the cases of the variants of at least some frequency u, reaches the share p of the cases, and dropping the variants of frequency exactly u would not reach it. No exception is raised.", "quantifier": "every event log, list of admitted variants, polarity, k and percentage", "why_tests_cant": "ties between variant frequencies, thresholds that fall on a boundary and arbitrary interleavings of the variants in the log cannot be enumerated", "anchors": ["pm4py/algo/filtering/log/variants/variants_filter.py", "pm4py/statistics/variants/log/get.py:get_variants", "pm4py/util/variants_util.py"]}
{"id": "C48", "title": "Prefix, suffix and between filters cut the cases where they say", "statement": "The prefix (suffix) filter returns one case for each case containing the activity, with the same case attributes, and consisting of the events before (after) the first or last occurrence of the activity, that occurrence included unless strict; a prefix and the complementary suffix concatenate to the case. The between filter returns, for each case, in order, the stretches that begin at an event with the first activity and end at the next event with the second activity; these stretches are uniquely determined, and with equal activities the closing event of one opens the next. No exception is raised when all events carry the activity.", "quantifier": "every event log, activity (list of activities, for between), first/last and strict option", "why_tests_cant": "repeated, overlapping or missing occurrences can be arranged in unboundedly many ways", "anchors": ["pm4py/algo/filtering/log/prefixes/prefix_filter.py", "pm4py/algo/filtering/log/suffixes/suffix_filter.py", "pm4py/algo/filtering/log/between/between_filter.py"]}
{"id": "C49", "title": "Dataframe filters agree with the event-log filters", "statement": "For a dataframe of events, filtering the dataframe and converting the result to an event log gives the same log as converting the dataframe and filtering the log. This holds for the start/end activity, attribute value, numeric (positive mode), eventually-follows, A-next-B-next-C (contiguous cases in which B and C occur at most once), four-eyes (all B events of a case by one resource), different-persons, rework, repetitions (minimum at least 1), case size, case performance, contained / intersecting timeframe (chronological cases; no timestamp equal to a bound for intersecting) and attribute-in-timeframe filters exactly; for the paths (chronological cases), variants, prefix and suffix filters up to the order of the cases and cases left without events; and the between filter with distinct activities cuts each case into the same segments. The used columns are complete where the log filter would otherwise raise.", "quantifier": "every dataframe of events (any interleaving of cases) and every filter parameter within the stated scope", "why_tests_cant": "the two implementations use unrelated algorithms (group-by/merge/shift versus loops over traces) and have to agree for every arrangement of rows, repeated activities and timestamps", "anchors": ["pm4py/algo/filtering/pandas/", "pm4py/algo/filtering/log/", "pm4py/objects/conversion/log/variants/to_event_log.py"]}
{"id": "C50", "title": "Cut detection of the Inductive Miner", "statement": "Whenever the Inductive Miner splits a directly-follows graph, the groups are a cut in the sense of the operator: they partition the activities into at least two nonempty groups; exclusive choice: no edges between groups; sequence (also strict): every activity reaches all those of later groups and none of those reaches back; concurrency: all edges in both directions between different groups, and a start and an end activity in each group; loop: the body contains all start and end activities, no edges between redo groups, the body is left only from end activities and re-entered only at start activities, and a redo activity connected with one start (end) activity is connected with all. Exclusive choice, sequence and loop cuts are found whenever one exists, and the one found is the finest; a concurrency cut is found whenever there is one whose groups cannot be divided further.", "quantifier": "every directly-follows graph with at least one start activity and every iteration order of sets", "why_tests_cant": "soundness and completeness range over all graphs and, for completeness, over all partitions of the activities", "anchors": ["pm4py/algo/discovery/inductive/cuts/xor.py", "pm4py/algo/discovery/inductive/cuts/sequence.py", "pm4py/algo/discovery/inductive/cuts/concurrency.py", "pm4py/algo/discovery/inductive/cuts/loop.py", "pm4py/algo/discovery/inductive/cuts/factory.py"]}
{"id": "C51", "title": "Token-based replay: meaning and balance of the token counters", "statement": "For every trace, token-based replay (without stop_immediately_unfit) on a net with positive arc weights reports: consumed = tokens of the final marking + input arc weights of all activated transitions; produced = tokens of the initial marking + output arc weights of the activated transitions; remaining = tokens of the reached marking beyond the final marking; missing at least the tokens of the final marking that are absent from the reached marking; 0 <= missing <= consumed, 0 <= remaining <= produced; trace fitness = 1/2(1-m/c)+1/2(1-r/p) lies in [0,1] and is 1 exactly if nothing is missing or remaining. With unit arc weights produced + missing = consumed + remaining, for the trace and for each place. The visible activated transitions spell the trace restricted to the activities of the model.", "quantifier": "all nets (silent transitions, duplicate labels, weights), initial/final markings, traces, technical limits, set iteration orders and options except stop_immediately_unfit", "why_tests_cant": "the hidden-transition search has unbounded many outcomes depending on net, marking and set order; the counters must be consistent for all of them", "anchors": ["pm4py/algo/conformance/tokenreplay/variants/token_replay.py:apply_trace", "pm4py/algo/conformance/tokenreplay/variants/token_replay.py:apply_log", "pm4py/algo/conformance/tokenreplay/variants/token_replay.py:apply_hidden_trans", "pm4py/algo/conformance/tokenreplay/variants/token_replay.py:add_missing_tokens"]}
{"id": "C52", "title": "Token-based replay: soundness and completeness of fitness", "statement": "If token-based replay reports no missing and no remaining tokens, the activated transitions form a firing sequence of the net from the initial to the final marking whose visible labels are the trace without unknown activities; so if all activities are known the net accepts the trace. If trace_is_fit is set, the activated transitions form a firing sequence spelling the trace (in workflow-like nets with a single final token: into the final marking). Conversely a trace spelled by a firing sequence of visible, uniquely labelled transitions from the initial to the final marking is replayed without missing or remaining tokens, through exactly these transitions, with fitness 1 and trace_is_fit.", "quantifier": "all nets, markings, traces, limits, set iteration orders and options", "why_tests_cant": "a fit verdict must mean language membership for every net and trace", "anchors": ["pm4py/algo/conformance/tokenreplay/variants/token_replay.py:apply_trace", "pm4py/algo/conformance/tokenreplay/variants/token_replay.py:apply_log"]}
{"id": "C53", "title": "Token-based replay treats cases independently", "statement": "Replaying a log returns one result per case, in the order of the log, and the result of a case equals the result of replaying that case alone, whatever the other cases, the grouping into variants and the order in which variants are replayed (default setting, activities unknown to the model not considered in the fitness). Permuting the log permutes the results.", "quantifier": "all logs, nets, markings, orders of replay and options with CONSIDER_ACTIVITIES_NOT_IN_MODEL_IN_FITNESS = False", "why_tests_cant": "state shared between cases (variant table, place statistics, unknown activities) interferes only for particular combinations of cases", "anchors": ["pm4py/algo/conformance/tokenreplay/variants/token_replay.py:apply_trace", "pm4py/algo/conformance/tokenreplay/variants/token_replay.py:apply_log"]}
{"id": "C54", "title": "Token-replay log fitness", "statement": "The percentage of fitting traces lies in [0,100], the average trace fitness and the log fitness in [0,1]; for a non-empty log and non-empty markings the percentage is 100 exactly if every case is fit, and log fitness (and average fitness) is 1 exactly if no case has missing or remaining tokens.", "quantifier": "all nets, logs, markings, options without stop_immediately_unfit", "why_tests_cant": "it is an invariant of a ratio of sums over arbitrary replay results", "anchors": ["pm4py/algo/evaluation/replay_fitness/variants/token_replay.py:evaluate", "pm4py/algo/conformance/tokenreplay/variants/token_replay.py:apply_trace", "pm4py/algo/conformance/tokenreplay/variants/token_replay.py:apply_log"]}
{"id": "C55", "title": "Shortest silent paths between places", "statement": "The table of shortest paths by hidden transitions stores for a pair of places a path through silent transitions leading from the first to the second, none of the silent paths within the recursion limit is shorter, and every pair connected by a silent path within the limit has an entry.", "quantifier": "all nets, recursion limits and iteration orders of the arcs", "why_tests_cant": "the depth-first search overwrites entries in an order dependent on set iteration; minimality must hold for all nets and orders", "anchors": ["pm4py/objects/petri_net/utils/petri_utils.py:get_places_shortest_path", "pm4py/objects/petri_net/utils/petri_utils.py:get_places_shortest_path_by_hidden"]}
{"id": "C56", "title": "A directly-follows graph converted to a Petri net accepts the traces of the graph", "statement": "The accepting net produced by pm4py.convert_to_petri_net from a directly-follows graph with start and end activities accepts exactly the traces that begin with a start activity, follow edges and stop at an end activity, provided start activities occur in an edge (in general: except one-event traces of activities in no edge); likewise the conversion with invisible transitions, provided the artificial start/end activity names are unused. In every reachable marking there is exactly one token. The net of the graph of a log accepts all traces of the log with at least two events.", "quantifier": "all directly-follows graphs, start/end activities, traces and logs", "why_tests_cant": "language equality quantifies over infinitely many traces and all graphs (cycles included)", "anchors": ["pm4py/objects/conversion/dfg/variants/to_petri_net_activity_defines_place.py:apply", "pm4py/objects/conversion/dfg/variants/to_petri_net_invisibles_no_duplicates.py:apply", "pm4py/convert.py:convert_to_petri_net"]}
{"id": "C57", "title": "Alignments with directly-follows graphs have optimal cost", "statement": "For every directly-follows graph with start and end activities and every trace, the alignment search of pm4py.algo.conformance.alignments.dfg (default costs) terminates, and returns an alignment whose cost is the minimum, over all traces of the graph, of the cost of aligning the two sequences (synchronous moves free, moves on one side K each); it returns None only if the graph has no trace at all. The cost is 0 exactly for traces of the graph, and then the returned moves are the synchronous moves. (The list of moves of alignments with positive cost is out of scope: it is refuted that it always is an alignment.)", "quantifier": "all graphs, start/end activities, traces, orders of equal heap entries and of set enumeration", "why_tests_cant": "the closed set of the search discards states by trace position only, so optimality must be argued for all graphs and traces, with cycles, and all tie-breakings", "anchors": ["pm4py/algo/conformance/alignments/dfg/variants/classic.py:__apply_list_activities", "pm4py/algo/conformance/alignments/dfg/variants/classic.py:apply_trace"]}
{"id": "C58", "title": "Fitness of a log against a directly-follows graph is in [0,1] and 1 exactly for traces of the graph", "statement": "Aligning a log with a directly-follows graph that has at least one trace returns, for every trace in order, the optimal cost, the worst-case cost (optimal cost of the empty trace plus K per event) and a fitness 1 - cost/bwc that lies in [0,1], is 1 exactly if the trace is a trace of the graph and 0 exactly if the cost equals the worst-case cost; there is never a division by zero.", "quantifier": "all graphs, logs, tie-breakings", "why_tests_cant": "range and extremal cases must hold for every log and graph", "anchors": ["pm4py/algo/conformance/alignments/dfg/variants/classic.py:apply_log"]}
{"id": "C59", "title": "Extensive playout of a Petri net generates exactly its language up to the maximal length", "statement": "If the extensive playout of an accepting Petri net with a final marking ends, the generated log contains exactly the traces of the language of the net (visible labels of firing sequences from the initial to the final marking) with at most max_trace_length events, and no trace twice; without a final marking, exactly the traces leading to a deadlock; with max_marking_occ, a subset. It always ends for nets with finitely many reachable markings.", "quantifier": "all accepting nets (also with weights, silent transitions, loops), maximal lengths, enumeration orders", "why_tests_cant": "completeness ranges over all firing sequences of all nets, infinitely many in the presence of loops", "anchors": ["pm4py/algo/simulation/playout/petri_net/variants/extensive.py:apply", "pm4py/sim.py:play_out"]}
{"id": "C60", "title": "Random playout of a Petri net generates only behaviour of the net", "statement": "Whatever the random choices: every trace generated by the basic playout is the visible part of a firing sequence from the initial marking with at most max_trace_length events, which stops at the bound, at a deadlock or in the final marking; with add_only_if_fm_is_reached every trace is accepted by the net. The log has no_traces traces (at most no_traces with add_only_if_fm_is_reached). Every accepted trace shorter than the bound can be generated.", "quantifier": "all accepting nets, all random choices, all parameters", "why_tests_cant": "tests see one random seed; the claim is about every sequence of choices", "anchors": ["pm4py/algo/simulation/playout/petri_net/variants/basic_playout.py:apply_playout", "pm4py/sim.py:play_out"]}
{"id": "C61", "title": "Writing and reading a directly-follows graph", "statement": "write_dfg followed by read_dfg (and export_as_string followed by import_dfg_from_string) gives back exactly the same graph, start activities and end activities with the same frequencies and in the same order, whatever the enumeration order of the set of activities; the export succeeds exactly if there is a start and an end activity and all of them occur in an edge of the graph; different graphs give different files. Scope: integer frequencies, names without line breaks and without white space at their ends.", "quantifier": "all directly-follows graphs with integer frequencies, all start and end activities, all plain names, all enumeration orders of a set", "why_tests_cant": "The format is positional (indices and counts separated by x and >); names may contain these characters, and the order of a Python set of strings changes from run to run.", "anchors": ["pm4py/objects/dfg/exporter/variants/classic.py:export_line_by_line", "pm4py/objects/dfg/exporter/variants/classic.py:export_as_string", "pm4py/objects/dfg/importer/variants/classic.py:import_dfg_from_rows", "pm4py/objects/dfg/importer/variants/classic.py:apply"]}
{"id": "C62", "title": "Footprints of a log are those of the set of its traces", "statement": "Footprints discovery on an event log (entire log, or trace by trace) returns exactly: as sequence the pairs (a,b) with a directly followed by b in some trace and never b by a; as parallel the pairs that directly follow each other both ways; the first and last activities of traces; the activities; the length of the shortest trace. Sequence and parallel partition the directly-follows pairs.", "quantifier": "every event log", "why_tests_cant": "ranges over all logs", "anchors": ["pm4py/algo/discovery/footprints/log/variants/entire_event_log.py:apply", "pm4py/algo/discovery/footprints/log/variants/trace_by_trace.py:apply", "pm4py/algo/discovery/causal/variants/alpha.py:apply"]}
{"id": "C63", "title": "Footprints conformance reports exactly the deviations", "statement": "Checking a log against the discovered footprints of a process tree (distinct labels; sequence, choice, parallel, binary loop) reports exactly the directly-follows pairs, first and last activities (and, trace by trace, missing always-happening activities) that the language of the tree does not allow; the fit flag says that there are none and that no trace is shorter than every trace of the tree; traces of the tree are never reported; caching of equal traces has no effect. Footprints fitness and precision are in [0,1]; for logs with at least one directly-follows pair, fitness is 1 iff no deviation is reported; precision is 1 iff every pair of the model occurs in the log.", "quantifier": "every tree in scope, every log, every set iteration order", "why_tests_cant": "infinite languages and all logs", "anchors": ["pm4py/algo/conformance/footprints/variants/log_extensive.py:apply", "pm4py/algo/conformance/footprints/variants/trace_extensive.py:apply", "pm4py/algo/conformance/footprints/util/evaluation.py:fp_fitness,fp_precision,flatten_fp,flatten_conf"]}
{"id": "C64", "title": "The Alpha Miner builds the textbook net", "statement": "The Alpha Miner, on any log or directly-follows graph, returns a net with exactly one transition per activity, a source place before the start activities, a sink after the end activities, and besides exactly one place for each maximal pair (A,B) of nonempty sets of activities such that every a in A causes every b in B and neither A nor B contains two (equal or different) activities that directly follow each other; its input transitions are A and its output transitions B; all arcs have weight 1 and there are no parallel arcs.", "quantifier": "every log / directly-follows graph, every order of its entries", "why_tests_cant": "the pairs are computed by an incremental merge whose completeness depends on the order of the pairs", "anchors": ["pm4py/algo/discovery/alpha/variants/classic.py:apply,apply_dfg_sa_ea", "pm4py/algo/discovery/alpha/data_structures/alpha_classic_abstraction.py", "pm4py/algo/discovery/causal/variants/alpha.py"]}
{"id": "C65", "title": "Playout of process trees generates exactly the language of the tree", "statement": "Playing out a process tree with play_out (the default top-bottom variant) returns exactly the requested number of traces, and every trace is a trace of the language of the tree, for all trees and all outcomes of the random generator for which the playout returns. For trees without inclusive choice and with loops of one do and one redo child, every list of traces of the language can be returned for some outcomes. Interleaving a parallel block never fails, whatever the outcome of the shuffle.", "quantifier": "all process trees, all numbers of traces, all sequences of outcomes of random.choice, random.random and random.shuffle, all traces of the language", "why_tests_cant": "The playout is random and the language of a tree is infinite: a test sees a few outcomes on a few trees, and cannot show that every trace of the language is reachable.", "anchors": ["pm4py/algo/simulation/playout/process_tree/variants/topbottom.py:get_ex_seq", "pm4py/algo/simulation/playout/process_tree/variants/topbottom.py:get_num_ex_sequences", "pm4py/algo/simulation/playout/process_tree/variants/topbottom.py:apply", "pm4py/sim.py:play_out"]}
{"id": "C66", "title": "Reduction of invisible transitions preserves language and soundness", "statement": "For an accepting Petri net with arc weights 1 whose initial and final tokens are on places without incoming or without outgoing arcs (or: whose marked places do not have exactly one incoming and one outgoing arc, and which has no dead transition), reduce_petri_net_invisibles ends and returns a net that, with the same markings, accepts exactly the same visible traces under the textbook firing rule; every visible label occurs as often as before and no transition is added; the option to complete, safeness, proper completion and the absence of dead transitions are kept. This holds for every order in which the code may pick candidates.", "quantifier": "all accepting nets meeting the conditions, all iteration orders of the sets of transitions and arcs, all traces", "why_tests_cant": "Equality of infinite languages of arbitrary nets, over all orders of set iteration, cannot be checked by running the code on some nets.", "anchors": ["pm4py/analysis.py:reduce_petri_net_invisibles", "pm4py/objects/petri_net/utils/reduction.py:apply_simple_reduction", "pm4py/objects/petri_net/utils/reduction.py:reduce_single_entry_transitions", "pm4py/objects/petri_net/utils/reduction.py:reduce_single_exit_transitions"]}
{"id": "C67", "title": "The default alignment search without LP solver returns valid alignments, finds one whenever one exists, and its costs are bounded as the fitness formula needs", "statement": "The memory-saving Dijkstra variant (dijkstra_less_memory, the default alignment algorithm when no LP solver is installed) returns only alignments of the trace and the net, with a cost that is the sum of the costs of their moves (10000 per visible deviation, 0 or 1 per silent move by default); a cost below 10000 implies that the net accepts the trace; it returns no alignment after exhausting its queue only if the final marking is unreachable; it terminates on nets with finitely many reachable markings; its cost never exceeds that of skipping the whole trace plus any complete run of the net, hence the best worst cost is exactly minimal and the derived fitness is between 0 and 1; on deterministic nets without silent transitions every fitting trace gets cost 0. Optimality in general is false and refuted: the trace x on the model 'optional x, then x' fits but is given a cost of 10000.", "quantifier": "all nets without parallel arcs (any positive weights), initial and final markings, traces, cost settings with non-negative costs where moving together is never dearer than moving alone, and all orders in which the transitions of the net are enumerated", "why_tests_cant": "The pruning rules (a marking closed at a later position, model moves blocked by synchronous moves, log moves only before model moves) interact in ways that depend on the whole state space; completeness, termination and the cost bound range over all nets and traces.", "anchors": ["pm4py/algo/conformance/alignments/petri_net/variants/dijkstra_less_memory.py:apply", "dijkstra_less_memory.py:__dijkstra", "dijkstra_less_memory.py:__check_closed", "dijkstra_less_memory.py:__fire_trans", "dijkstra_less_memory.py:__reconstruct_alignment", "dijkstra_less_memory.py:get_best_worst_cost", "pm4py/algo/conformance/alignments/petri_net/algorithm.py"]}
{"id": "C68", "title": "ETConformance precision counts exactly the escaping activities of the log's prefixes", "statement": "Precision of a log against a net is 1 minus (sum over the non-empty log prefixes that fit, plus the empty prefix counted once per case, of occurrences times escaping labels) over (the same sum of activated labels), 1 when the denominator is 0. Escaping labels of a prefix are the activated labels with which no case continues it. The value lies in [0,1], equals 1 exactly when no counted prefix has an escaping label, and does not depend on the order of the cases. In the alignment variant the activated labels of a prefix are the labels of the visible transitions enabled after silent firings in the markings where a shortest silent-move run of the prefix stops; the helper reporting them lists only transitions that are eventually enabled, and all of them when no two distinct silently reachable markings enable the same transition (e.g. in state machines); a prefix no run spells is skipped; the searches terminate on bounded nets. The comma-joined key identifies prefixes when activity names contain no comma.", "quantifier": "all Petri nets with unit arc weights, all logs (event-log objects), all markings and prefixes", "why_tests_cant": "The result depends on every interleaving of silent transitions, every prefix of every case, and a search over a possibly large state space; tests compare few hand computed values.", "anchors": ["pm4py/algo/evaluation/precision/utils.py:__search, get_log_prefixes, form_fake_log", "pm4py/algo/evaluation/precision/variants/align_etconformance.py:apply, transform_markings_from_sync_to_original_net, align_fake_log_stop_marking", "pm4py/algo/evaluation/precision/variants/etconformance_token.py:apply", "pm4py/objects/petri_net/utils/align_utils.py:get_visible_transitions_eventually_enabled_by_marking"]}
{"id": "C69", "title": "Alignment-based log fitness aggregates the alignments of the traces", "statement": "The evaluation of aligned traces returns the percentage of traces with fitness 1, the mean trace fitness, and 1 minus the total cost over the total worst cost (1 if the latter is 0), ignoring traces that could not be aligned, independent of their order. The percentage is in [0,100], the other two in [0,1]; percentage and mean are maximal exactly when every trace has fitness 1, log fitness exactly when every alignment is free. For Dijkstra alignments of a non-empty log: log fitness is 1 exactly when every trace is spelled by an accepting run without silent transitions; percentage 100 implies that the net accepts every trace and holds if every trace is accepted with fewer than 10000 silent moves (when the worst cost of each trace is at least one deviation).", "quantifier": "all lists of aligned traces; all nets with unit arc weights and all logs", "why_tests_cant": "A few logs cannot show the range, extremal and order-independence statements for all logs and nets.", "anchors": ["pm4py/algo/evaluation/replay_fitness/variants/alignment_based.py:evaluate", "pm4py/algo/conformance/alignments/petri_net/algorithm.py:apply_log"]}
{"id": "C70", "title": "Generalization and simplicity measures", "statement": "Token-based generalization is 1 minus the mean over the transitions of the net of 1/sqrt(number of firings in the replay), a transition that never fires counting as 1; it lies in [0,1), is 0 exactly when no transition fires twice, does not depend on the order of the traces and never decreases when more traces are replayed. Arc-degree simplicity is 1/(1+max(0, d-k)) with d = 2*arcs/nodes; it lies in (0,1], is 1 exactly when d <= k, and never increases when arcs are added.", "quantifier": "all nets, all replayed logs, all k", "why_tests_cant": "Ranges, extremal cases and monotonicity concern all nets and logs.", "anchors": ["pm4py/algo/evaluation/generalization/variants/token_based.py:get_generalization", "pm4py/algo/evaluation/simplicity/variants/arc_degree.py:apply"]}
{"id": "C71", "title": "POWL to Petri net conversion keeps the language and yields a sound net", "statement": "Converting a POWL model (activities, silent steps, choices, loops, partial orders, arbitrarily nested) to a Petri net yields an accepting net whose visible traces are exactly the traces of the model: an execution of a partial order interleaves executions of its children such that all events of a child come before all events of the children ordered (directly or transitively) after it. The net is a workflow net, safe, always able to complete, completes properly and has no dead transition. Using only the transitively reduced edges loses nothing.", "quantifier": "all POWL models whose choices and partial orders have children and whose orders are acyclic (transitive or not), all orders in which the reduction rules are applied", "why_tests_cant": "Models nest without bound and loops make the language infinite.", "anchors": ["pm4py/objects/conversion/powl/variants/to_petri_net.py:recursively_add_tree", "pm4py/objects/conversion/powl/variants/to_petri_net.py:apply", "pm4py/objects/powl/BinaryRelation.py:get_transitive_reduction"]}
{"id": "C72", "title": "Process tree to POWL conversion keeps the language", "statement": "Converting a process tree without interleaving operators to POWL yields a model with exactly the traces of the tree; the Petri nets obtained from the tree directly and through POWL accept the same traces. The conversion succeeds exactly for trees without OR whose choices have at least two and whose loops have exactly two children.", "quantifier": "all process trees", "why_tests_cant": "Trees nest without bound and languages are infinite.", "anchors": ["pm4py/objects/conversion/process_tree/variants/to_powl.py:apply_recursive"]}
{"id": "C73", "title": "Simplifying a POWL model keeps its language", "statement": "For every POWL model whose orders have no cycles and whose choices and orders are not empty, simplify() ends and returns a model with exactly the same traces; the result is again well formed (no cycles, nothing empty), every choice it builds has at least two alternatives (so no constructor raises) and no choice is directly nested in a choice, and the nesting depth does not grow. This covers the merge of a skip with a loop, the flattening of nested choices and the dissolution of nested partial orders.", "quantifier": "all POWL models (any nesting of leaves, choices, loops and partial orders), all words", "why_tests_cant": "Languages of models are infinite (loops) and the dissolution of a nested order depends on the shape of the order around it; a test compares a few models and a few traces.", "anchors": ["pm4py/objects/powl/obj.py:StrictPartialOrder.simplify", "pm4py/objects/powl/obj.py:OperatorPOWL.simplify", "pm4py/objects/powl/BinaryRelation.py:BinaryRelation.get_start_nodes", "pm4py/objects/powl/BinaryRelation.py:BinaryRelation.get_end_nodes"]}
{"id": "C74", "title": "Concurrent activities: overlapping pairs of events", "statement": "For a log whose events do not complete before they start, pm4py's concurrent-activities statistic maps the sorted pair of activities (a, b) to the number of unordered pairs of events of the same trace with these activities whose intervals share an instant (more than an instant if the strict option is set); a pair without such events is not a key. The early exit of the inner loop loses nothing.", "quantifier": "all event logs with start and completion timestamps, in any order in the trace, both values of the strict option", "why_tests_cant": "The loop stops at the first non-overlapping event; that this is sound rests on the sort by start timestamp and on every interval being well formed, for all traces.", "anchors": ["pm4py/statistics/concurrent_activities/log/get.py:apply"]}
{"id": "C75", "title": "Eventually-follows graph of an interval log", "statement": "The eventually-follows statistic counts, for (a, b), the pairs of events of the same trace where the b-event is sorted behind the a-event by start time and starts when or after the a-event has completed; with keep_first_following only the first such b-event after each a-event is counted. On logs of instantaneous, time-ordered events it equals the statistic computed from the variants with their frequencies.", "quantifier": "all event logs with start and completion timestamps, both values of keep_first_following", "why_tests_cant": "A count over all pairs of positions of traces of any length, and the agreement of two implementations on every log.", "anchors": ["pm4py/statistics/eventually_follows/log/get.py:apply", "pm4py/statistics/eventually_follows/uvcl/get.py:apply"]}
{"id": "C76", "title": "Cycle time: what it measures", "statement": "For a non-empty list of intervals with start <= end and a positive number of instances, cycle_time returns the number of time units at which some event was running before the beginning of the last uninterrupted period, divided by the number of instances; it does not depend on the order of the events. (It is not the whole production time: the last period is never added.)", "quantifier": "all lists of intervals, all numbers of instances, all orders", "why_tests_cant": "The merging of overlapping intervals must be right for every configuration of nested, touching and disjoint intervals.", "anchors": ["pm4py/statistics/traces/cycle_time/util/compute.py:cycle_time"]}
{"id": "C77", "title": "Case overlap counts the cases open at the same time", "statement": "For a log of non-empty cases whose events do not complete before they start and a positive epsilon, the case-overlap statistic returns one number per case, in order; if no two cases have the same span it is the number of cases (the case itself included) whose span widened by epsilon intersects the widened span of the case.", "quantifier": "all event logs, all positive epsilons", "why_tests_cant": "A count over all pairs of cases; whether identical spans collapse is a matter of the whole log.", "anchors": ["pm4py/statistics/overlap/utils/compute.py:apply", "pm4py/statistics/overlap/cases/log/get.py:apply"]}
{"id": "C78", "title": "Object-centric logs: filtering on events", "statement": "filter_ocel_event_attribute, filter_ocel_events, filter_ocel_events_timestamp, filter_ocel_object_per_type_count, filter_ocel_start_events_per_object_type, filter_ocel_end_events_per_object_type and sample_ocel_events return the part of the log given by the selected events: exactly the selected events, their relations, the objects of these relations, and the event-to-event, object-to-object and change rows that speak only of kept events and objects; rows are unmodified and in order, and the result refers to no missing event or object. The selected events are those with (without) the values, in the closed time range, with some relation and at least max(1, required) relations per listed type, holding the first (last) relation of an object of the type, or a sample of the required size.", "quantifier": "all referentially consistent object-centric logs, all parameters, every shuffling", "why_tests_cant": "Referential integrity and exact selection must hold for every configuration of events, objects and the six tables.", "anchors": ["pm4py/objects/ocel/util/filtering_utils.py:propagate_event_filtering", "pm4py/algo/filtering/ocel/event_attributes.py:apply", "pm4py/algo/filtering/ocel/event_attributes.py:apply_timestamp", "pm4py/algo/filtering/ocel/objects_ot_count.py:apply", "pm4py/algo/filtering/ocel/ot_endpoints.py", "pm4py/objects/ocel/util/sampling.py", "pm4py/filtering.py:filter_ocel_events"]}
{"id": "C79", "title": "Object-centric logs: filtering on objects", "statement": "filter_ocel_object_attribute, filter_ocel_object_types, filter_ocel_objects (with a level) and sample_ocel_objects return the part of the log given by the selected objects: exactly these objects, their relations, the events of these relations and the rows of the other tables speaking only of kept events and objects; the result is referentially consistent. At level n the selected objects are those at most n-1 meetings (common events) away from a given object (or all other objects).", "quantifier": "all referentially consistent object-centric logs, all object sets, types, levels and polarities", "why_tests_cant": "Neighbourhoods of every depth in every interaction graph, and integrity for every log.", "anchors": ["pm4py/objects/ocel/util/filtering_utils.py:propagate_object_filtering", "pm4py/algo/filtering/ocel/object_attributes.py:apply", "pm4py/filtering.py:filter_ocel_objects", "pm4py/filtering.py:filter_ocel_object_types", "pm4py/objects/ocel/util/sampling.py:sample_ocel_objects"]}
{"id": "C80", "title": "Object-centric logs: filtering by connected component", "statement": "filter_ocel_cc_object keeps exactly the objects connected (by chains of common events) with the given object. filter_ocel_cc_length / _otype / _activity keep exactly the objects that share an event with another object and whose component has a size in the range / contains an object of (not of) the type / contains an object of an event with the activity. Events kept by these filters keep all their objects, and the results are referentially consistent, whatever the order in which sets are iterated.", "quantifier": "all referentially consistent object-centric logs, all parameters, all iteration orders of the edge set", "why_tests_cant": "Connectivity over chains of any length.", "anchors": ["pm4py/filtering.py:filter_ocel_cc_object", "pm4py/filtering.py:filter_ocel_cc_length", "pm4py/filtering.py:filter_ocel_cc_otype", "pm4py/filtering.py:filter_ocel_cc_activity"]}
{"id": "C81", "title": "Object-centric logs: allowed activities per object type", "statement": "If the first character of the internal separator occurs in no activity name, filter_ocel_object_types_allowed_activities keeps exactly the relations whose activity is allowed for their object type, with the events and objects of these relations and the rows of the other tables speaking only of those; the result is referentially consistent.", "quantifier": "all referentially consistent object-centric logs, all dictionaries, all names satisfying the condition", "why_tests_cant": "The names are concatenated to strings: whether different combinations are confused depends on all possible names.", "anchors": ["pm4py/algo/filtering/ocel/activity_type_matching.py:apply", "pm4py/objects/ocel/util/filtering_utils.py:propagate_relations_filtering"]}
{"id": "C82", "title": "Flattening an object-centric log", "statement": "flatten(ocel, type) of a well-formed log yields rows each consisting of an event and a related object of the type (the case, with the object's attributes). If no event-object relation is repeated, the case of an object consists of exactly the events related to it, once each, in the order of the log; in general an event occurs in the case as often as the relation is repeated.", "quantifier": "all well-formed object-centric logs and object types", "why_tests_cant": "A join over all combinations of the three tables.", "anchors": ["pm4py/objects/ocel/util/flattening.py:flatten"]}
{"id": "C83", "title": "Graphs between objects", "statement": "The object interaction graph has the pairs of different objects with a common event; if every event has an object, the cobirth (codeath) graph has the pairs of objects with the same first (last) event, the descendants graph the pairs (a, b) where b appears first in an event of a that is not the first of a, and the inheritance graph the pairs (a, b) where the last event of a is the first event of b but not also vice versa. If some event has no object, all four raise a KeyError.", "quantifier": "all object-centric logs", "why_tests_cant": "First and last events over histories of any length.", "anchors": ["pm4py/algo/transformation/ocel/graphs/object_interaction_graph.py", "pm4py/algo/transformation/ocel/graphs/object_cobirth_graph.py", "pm4py/algo/transformation/ocel/graphs/object_codeath_graph.py", "pm4py/algo/transformation/ocel/graphs/object_descendants_graph.py", "pm4py/algo/transformation/ocel/graphs/object_inheritance_graph.py"]}
{"id": "C84", "title": "Prefix tree of a log", "statement": "The paths from the root of discover_prefix_tree(log) are exactly the prefixes of the traces; there is one node per prefix, carrying its length as depth and its last activity as label; every final node is the end of a variant and every leaf is final; the end of a variant is marked final exactly when no variant inserted before it passes through the node, so in particular when it is not a prefix of another variant.", "quantifier": "all lists of variants (logs) and all paths", "why_tests_cant": "Finality depends on the order of insertion and on all prefix relations between variants.", "anchors": ["pm4py/algo/transformation/log_to_trie/algorithm.py:apply", "pm4py/objects/trie/obj.py:Trie"]}
{"id": "C85", "title": "Transition system of a log", "statement": "In discover_transition_system(log), for each view (sequence, multiset, set), direction and window, every event is a transition with its activity between states named by the views before and after it, every transition comes from such an event, every state is an endpoint of a transition, and no transition is duplicated. If no event leaves the view unchanged (always so for sequences and multisets with a window covering the traces), there is one state per view and every trace is a path.", "quantifier": "all logs, views, directions, windows and iteration orders of the set of states", "why_tests_cant": "States are looked up by iterating over a set of objects, whose order varies between runs.", "anchors": ["pm4py/algo/discovery/transition_system/variants/view_based.py:apply", "pm4py/objects/transition_system/obj.py:TransitionSystem"]}
{"id": "C86", "title": "Rework statistics", "statement": "get_rework_cases_per_activity reports for each activity the number of cases in which it occurs more than once, and contains exactly the activities with at least one such case; the dataframe version and the event-log version return the same dictionary.", "quantifier": "all logs and dataframes (any interleaving of cases), all activities", "why_tests_cant": "Holds for all interleavings of the rows and numbers of repetitions.", "anchors": ["pm4py/statistics/rework/log/get.py:apply", "pm4py/statistics/rework/pandas/get.py:apply"]}
{"id": "C87", "title": "Workflow-net checks are exact", "statement": "pm4py.check_is_workflow_net(net) (short-circuit variant) returns True exactly when the net has a unique source place, a unique sink place and every node lies on a path from source to sink, provided no two nodes share a name and no node carries the reserved name of the short-circuit transition; for any names it never rejects a workflow net. check_soundness.check_wfnet returns True exactly when there is one source place, one sink place and the net is connected when the direction of arcs is ignored (it is therefore weaker than being a workflow net).", "quantifier": "all finite Petri nets, all namings of nodes", "why_tests_cant": "The equivalence ranges over all nets, including cyclic and disconnected ones, and all name collisions.", "anchors": ["pm4py/algo/analysis/workflow_net/variants/petri_net.py:apply", "pm4py/objects/petri_net/utils/check_soundness.py:check_wfnet"]}
{"id": "C88", "title": "Removing implicit places preserves the runs", "statement": "If the place that comes first in the order of the names carries no initial token, the net returned by reduce_petri_net_implicit_places has the same runs as the original net up to the tokens on removed places: every firing sequence of one corresponds to a firing sequence of the other with the same transitions and labels, ending in markings that agree on the remaining places. Every trace accepted by the original net is accepted by the reduced net; the reduced net accepts exactly the traces of runs of the original that reach the final marking on the remaining places.", "quantifier": "all Petri nets without parallel arcs (any positive weights), all initial and final markings, all orders of the places whose first one is unmarked, all runs of any length", "why_tests_cant": "It quantifies over all nets and all unbounded runs; the reduction rests on an integer program whose rows accumulate across iterations.", "anchors": ["pm4py/objects/petri_net/utils/murata.py:apply_reduction", "pm4py/analysis.py:reduce_petri_net_implicit_places"]}
{"id": "C89", "title": "Maximal decomposition preserves behaviour", "statement": "maximal_decomposition(net, im, fm) puts every place (with its initial and final tokens) and every silent transition into exactly one component. For a net with arc weights 1, a sequence of transitions is a run from im to fm exactly when what each component sees of it is a run of that component from its initial to its final marking; if moreover no two transitions have the same label, a trace fits the net exactly when its activities occur in the net and its projection on the activities of each component fits that component.", "quantifier": "all Petri nets with distinct node names and arc weights 1 (unique visible labels for the trace version), all markings, all firing sequences and traces", "why_tests_cant": "The equivalence is over all runs of all nets, with components interleaving silent transitions in arbitrary ways.", "anchors": ["pm4py/objects/petri_net/utils/decomposition.py:decompose", "pm4py/objects/petri_net/utils/decomposition.py:get_graph_components", "pm4py/analysis.py:maximal_decomposition"]}
{"id": "C90", "title": "Saving and loading a Petri net in PNML returns the same net and markings", "statement": "For every Petri net with distinct place names, distinct transition names, positive arc weights and no empty label, writing it with write_pnml and reading the file with read_pnml returns the same places, the same transitions with the same labels (silent ones stay silent), the same arcs with the same weights and the same inhibitor/reset types, an initial marking that puts the same tokens on every place, and the same (non-empty) final marking; the loaded net is an inhibitor (reset) net iff it has an inhibitor (reset) arc. With an empty final marking the net is still the same, and the loaded final marking is one token on each place without outgoing arcs.", "quantifier": "all nets (plain, inhibitor, reset; weighted arcs; places and transitions sharing names), all markings", "why_tests_cant": "there are infinitely many nets, labels and weights; a round trip that loses a weight, an arc type or a token shows only for particular nets", "anchors": ["pm4py/objects/petri_net/exporter/variants/pnml.py:export_petri_tree", "pm4py/objects/petri_net/importer/variants/pnml.py:import_net_from_xml_object", "pm4py/objects/petri_net/utils/final_marking.py:discover_final_marking"]}
{"id": "C91", "title": "Saving and loading a process tree in PTML keeps the tree and its language", "statement": "For every process tree without the interleaving operator whose loops have exactly two children, write_ptml succeeds and read_ptml of the file returns the same tree with only the children of parallel and exclusive-choice nodes re-ordered (by the hash of their labels, as pm4py does for discovered trees); in particular the loaded tree has exactly the same traces. A tree containing the interleaving operator cannot be written.", "quantifier": "all process trees (any depth and width, repeated labels, silent leaves), all assignments of distinct node identifiers", "why_tests_cant": "the file lists nodes breadth-first and edges separately; that reassembling them restores every tree, with the right child order, for every shape cannot be settled on examples", "anchors": ["pm4py/objects/process_tree/exporter/variants/ptml.py:export_ptree_tree", "pm4py/objects/process_tree/exporter/variants/ptml.py:get_list_nodes_from_tree", "pm4py/objects/process_tree/importer/variants/ptml.py:import_tree_from_xml_object"]}
{"id": "C92", "title": "Business-hours durations measure exactly the time inside the weekly slots", "statement": "For every two timestamps and every list of weekly slots (each within one week, in any order, possibly overlapping or nested), the business-hours duration equals the amount of time between the two timestamps that lies in at least one slot of its week - each moment counted once - plus the pauses of exactly one second between two slots, which the code merges; without such pauses it is exactly the time inside the slots. The computation always terminates, and the duration is 0 when the second timestamp is not after the first.", "quantifier": "all pairs of timestamps, all lists of weekly slots, any resolution of time", "why_tests_cant": "the function merges slots and loops over weeks until a week without overlap; that no week is missed and nothing is counted twice for every combination of slots and spans of weeks is not settled by examples", "anchors": ["pm4py/util/business_hours.py:BusinessHours", "pm4py/util/business_hours.py:get_overlapping_time", "pm4py/util/business_hours.py:soj_time_business_hours_diff"]}
{"id": "C93", "title": "Social networks: the connection values are the shares they are documented to be", "statement": "For every log, seen as the resources of the events of each case, and every order of its variants: discover_handover_of_work_network with beta >= 0 has a connection (a, b) exactly when b comes after a in some case (directly after, when beta is 0), the value is the beta-weighted number of these handovers divided by that of all handovers, and the values add up to 1. discover_working_together_network on an event log connects (a, b) exactly when a and b differ and both occur in some case, with the number of such cases divided by the number of cases (on a dataframe: divided by the number of events). discover_subcontracting_network with n >= 2 only has a connection (a, b) when in some case a occurs at i and i + n and b in between, its value is positive and never more than the number of such patterns per case, and every a with such a pattern has a connection.", "quantifier": "all logs (any number, length and repetition of cases), all resources, all orders of the variants, all beta >= 0, all n >= 2", "why_tests_cant": "The values are aggregates over all variants, positions and pairs of a log; a wrong count in a rare repetition or an order-dependent update is not seen on a few logs.", "anchors": ["pm4py/algo/organizational_mining/sna/variants/log/handover.py:apply", "pm4py/algo/organizational_mining/sna/variants/pandas/handover.py:apply", "pm4py/algo/organizational_mining/sna/variants/log/working_together.py:apply", "pm4py/algo/organizational_mining/sna/variants/pandas/working_together.py:apply", "pm4py/algo/organizational_mining/sna/variants/log/subcontracting.py:apply", "pm4py/algo/organizational_mining/sna/variants/pandas/subcontracting.py:apply"]}
{"id": "C94", "title": "Object-centric DFG: every edge, start and end activity carries exactly its events and objects", "statement": "For every object-centric event log with unique identifiers, consistent tables and no event related twice to the same object, discover_ocdfg has an edge (type, activity, activity) exactly when some object of the type has two consecutive events with these activities; total_objects of the edge is exactly the set of triples (event, next event of the object, object), listed once each, event_couples and unique_objects are its projections. The performance of an edge is the sorted list of the timestamp differences of its pairs of events, none negative when events are ordered by timestamp. For every log activities_indep, activities_ot, start_activities and end_activities associate each activity with exactly the (event, object) pairs of its relations, of its relations of the type, of the first and of the last relation of each object of the type.", "quantifier": "all object-centric logs (any number of events, objects, relations, types), all types, activities, events and objects", "why_tests_cant": "The edge discovery keeps a history per object over interleaved events; correctness for every interleaving, sharing of objects and order of the tables cannot be sampled.", "anchors": ["pm4py/statistics/ocel/edge_metrics.py:find_associations_per_edge", "pm4py/statistics/ocel/edge_metrics.py:performance_calculation_ocel_aggregation", "pm4py/statistics/ocel/act_utils.py:find_associations_from_relations_df", "pm4py/statistics/ocel/act_ot_dependent.py:find_associations_from_ocel", "pm4py/algo/discovery/ocel/ocdfg/variants/classic.py:apply"]}
{"id": "C95", "title": "Organizational roles: a partition of the activities, merged exactly while two roles are too similar", "statement": "For every log of events with a resource and an activity, every threshold and every tie-breaking, discover_organizational_roles terminates; every activity of the log is in exactly one role; the originators of a role are exactly the resources doing one of its activities, with the number of these events; no two roles in the result have a similarity above the threshold; and the roles are obtained from one role per activity by repeatedly merging two roles of maximal similarity, always above the threshold. The similarity (shares of the resources, intersection over union) is between 0 and 1, symmetric, and 1 exactly for roles with the same shares.", "quantifier": "all logs (any resources, activities, repetitions), all thresholds, all orders of roles and all tie-breaking among equally similar pairs", "why_tests_cant": "The merging loop depends on all pairwise similarities after each merge; termination, the deletion of two positions and the aggregation of counters must be right for every log and tie.", "anchors": ["pm4py/algo/organizational_mining/roles/common/algorithm.py:aggregate_roles_iteration", "pm4py/algo/organizational_mining/roles/common/algorithm.py:find_role_similarity", "pm4py/algo/organizational_mining/roles/common/algorithm.py:get_initial_roles", "pm4py/algo/organizational_mining/roles/common/algorithm.py:apply", "pm4py/algo/organizational_mining/roles/variants/log.py:apply"]}
{"id": "C96", "title": "Discovered DECLARE constraints carry the exact support and confidence of the log", "statement": "discover_declare returns, for given thresholds, exactly the constraints over the considered activities and the computed templates with support > (number of cases) x min_support and confidence > support x min_confidence; the reported support is the number of cases that activate the constraint and the confidence the number of those in which it is satisfied (per template as in Spec_DeclareDisc: the precedence templates are activated when both activities occur; alternate/chain response and precedence are tested as alternate/chain succession). Without thresholds they are 0.8 (the multiplier) times the ratios of a constraint with the highest confidence, which is itself discovered. A positive constraint of full confidence holds in every case that activates it. Discovery succeeds on every non-empty log if existence is allowed and every case has a considered activity.", "quantifier": "all logs, sets of considered activities, allowed templates, thresholds and multipliers", "why_tests_cant": "the counts must be right for every log and each of the 18 templates; the tables are built from per-variant rows, zero-filled columns and derived columns", "anchors": ["pm4py/algo/discovery/declare/variants/classic.py: form_rules_table, get_rules_from_rules_df, apply", "pm4py/discovery.py: discover_declare"]}
{"id": "C97", "title": "The XES importer does not depend on how the file is cut into chunks", "statement": "read_xes (its default importer) reads a file in chunks of 4096 bytes. For every text in which what stands between two neighbouring angle brackets is white space or starts with a character that is not white space, the log that is read (or the exception) is the same for every way of cutting the text into chunks. Every file written by write_xes has this form, so a written log is read in the same way whatever its size and alignment. Outside this form the log may depend on the position of the cut (counterexample proved).", "quantifier": "all texts of 8-bit characters of the stated form, all lists of chunks whose concatenation is the text, all float and date parsers", "why_tests_cant": "The chunk boundary falls at a different place for every file: a test sees a handful of alignments, not every split inside every tag, value and white space.", "anchors": ["pm4py/objects/log/importer/xes/variants/chunk_regex.py:import_log_from_file_object", "pm4py/read.py:read_xes"]}
{"id": "C98", "title": "A log written by write_xes is read back by read_xes", "statement": "For every log whose attributes (of the log, of the globals, of the traces and of the events) are dictionaries of texts, integers, floats, dates and Booleans, with keys and texts free of the characters & < > double quote, line feed, carriage return and tab, with concept:name a text, with extensions and classifiers whose names and words are not ambiguous, reading the file written by the default exporter with the default importer gives exactly that log: extensions, classifiers, attributes, globals, traces and events in the same order with the same keys, types and values. For other attributes the theorem C98_lossy gives what is read: special characters as entities, values of other types as texts, nested attributes without their children; lists come back as dictionaries and are corrupted when written again (counterexamples proved).", "quantifier": "all logs of any size of the stated form, all float and date writers and readers that invert each other on plain texts, all encodings names, all ways of cutting the file into chunks", "why_tests_cant": "The strings, the nesting and the number of traces are unbounded, and both programs work on the characters of the text; tests compare a few files.", "anchors": ["pm4py/objects/log/exporter/xes/variants/line_by_line.py:export_log_line_by_line, export_attribute, export_trace_line_by_line", "pm4py/objects/log/importer/xes/variants/chunk_regex.py:import_log_from_file_object", "pm4py/write.py:write_xes", "pm4py/read.py:read_xes"]}
{"id": "C99", "title": "Heuristics Miner: edges, nodes and AND measures are those of the counts", "statement": "discover_heuristics_net produces, between two activities a and b, exactly one edge carrying the dependency value (ab-ba)/(ab+ba+1) (or aa/(aa+1) for a self loop) and the number of occurrences of the relation, when both activities and the relation are frequent enough and the dependency reaches the threshold; exactly one edge with dependency 0 in both directions when a and b form a frequent short loop a b a whose relations are not strong and one of them already has a strong relation; and no edge otherwise. Counts are those of the log after removing relations below the noise threshold. The nodes are exactly the activities with an edge (all activities, isolated, when no relation is strong), with their number of occurrences. AND measures are reported exactly for pairs of strong successors (predecessors) whose measure (ab+ba)/(xa+xb+1) reaches the threshold. With a positive dependency threshold positive edges are one-directional, and raising the threshold never adds a positive edge nor changes the ones that stay.", "quantifier": "every event log and every choice of the thresholds (rational), every pair of activities", "why_tests_cant": "the result depends on all counts of the log, on five interacting thresholds and on the order in which pairs and loops are processed", "anchors": ["pm4py/algo/discovery/heuristics/variants/classic.py: calculate, apply_heu", "pm4py/objects/heuristics_net/node.py: calculate_and_measure_out, calculate_and_measure_in, calculate_loops_length_two", "pm4py/algo/filtering/dfg/dfg_filtering.py: clean_dfg_based_on_noise_thresh", "pm4py/algo/discovery/dfg/variants/freq_triples.py"]}
{"id": "C100", "title": "Converting a workflow net to a process tree preserves the traces", "statement": "If convert_to_process_tree (wf_net/variants/to_process_tree.apply) returns a tree for a workflow net with source i and sink o (arcs of weight 1, no parallel arcs, every transition fireable in some reachable state) that has at least one complete trace, then the tree (folded or not) has exactly the visible traces of the net from [i] to [o], whatever the iteration order of Python's sets; the net is then safe; and the grouping loop ends for every net after at most |places|+|transitions| rounds. Outside this scope the claim is false (proved): nets with dead transitions and nets with arc weights are converted into trees with traces the net does not have, and a net with one transition is rejected.", "quantifier": "all workflow nets, all iteration orders of transition and place sets, fold on or off, all traces", "why_tests_cant": "Grouping order depends on set iteration; traces are infinitely many and nets unbounded; correctness depends on a safety/liveness invariant of every intermediate net.", "anchors": ["pm4py/objects/conversion/wf_net/variants/to_process_tree.py:apply", "pm4py/objects/conversion/wf_net/variants/to_process_tree.py:group_blocks_in_net", "pm4py/objects/conversion/wf_net/variants/to_process_tree.py:binary_sequence_detection", "pm4py/objects/conversion/wf_net/variants/to_process_tree.py:binary_concurrency_detection", "pm4py/objects/conversion/wf_net/variants/to_process_tree.py:binary_loop_detection", "pm4py/objects/conversion/wf_net/variants/to_process_tree.py:__insert_dummy_invisibles"]}
{"id": "C101", "title": "Structural comparison of process trees is equality up to reordering, and implies language equality", "statement": "For process trees whose operators have children (loops at least two) and without INTERLEAVING, structurally_language_equal(t, u) is True exactly if u is obtained from t by reordering, at every depth, children of parallel, exclusive-choice and inclusive-choice nodes; the comparison is reflexive, symmetric and transitive, and trees found equal have the same language. (A tree with an INTERLEAVING node is not found equal to itself.)", "quantifier": "all pairs (triples) of well-formed process trees of any size, with repeated labels and repeated subtrees", "why_tests_cant": "The children of commutative operators are matched greedily; that no greedy choice can miss a matching, at any depth and for repeated subtrees, is a statement over all trees.", "anchors": ["pm4py/objects/process_tree/utils/generic.py:structurally_language_equal"]}
{"id": "C102", "title": "Reducing a process tree by a trace keeps its behaviour over the activities of the trace", "statement": "For a process tree with operators sequence, exclusive choice, parallel and loop with one redo child (uniquely labelled, every operator node with a visible leaf below it) and every trace, the reduction returns a tree that allows only traces of the original tree, and that allows exactly the same traces as the original one among those over activities of the given trace; so the given trace fits the reduced tree iff it fits the original one. With inclusive choice and loops of several redo children the same holds of every tree returned. (With repeated labels the result may be a mere subtree of the original tree.)", "quantifier": "all uniquely labelled process trees, all traces, all enumeration orders of the set of tree nodes and all choices among equal nodes", "why_tests_cant": "Depends on the bottom-up order of a hash set of nodes, on node equality by value and on the language of arbitrary trees.", "anchors": ["pm4py/algo/reduction/process_tree/variants/tree_tr_based.py:apply", "pm4py/algo/reduction/process_tree/variants/tree_tr_based.py:reduce", "pm4py/objects/process_tree/utils/bottomup.py:get_bottomup_nodes"]}
{"id": "C103", "title": "Converting a BPMN diagram to a Petri net preserves its traces", "statement": "For every BPMN diagram whose nodes are tasks, start events, end events, exclusive gateways and parallel gateways and whose flows connect nodes of the diagram, the accepting Petri net returned by convert_to_petri_net - with or without the reduction of invisible transitions, and whatever the order in which its rules are applied - accepts exactly the traces of the complete executions of the token game of the diagram: a parallel gateway waits for a token on every incoming flow and puts one on every outgoing flow, any other node takes a token from one incoming flow and puts one on one outgoing flow, a start event begins and an end event ends the process. The reduction keeps option to complete, safeness, proper completion and absence of dead transitions.", "quantifier": "all diagrams of any size (cyclic, unsafe, several start and end events, parallel flows, nodes without incoming or outgoing flows), all traces, all reduction orders", "why_tests_cant": "Equality of two infinite languages for all diagrams; the net interleaves the three micro-steps (enter, act, leave) of different nodes, and the reduction order follows set iteration.", "anchors": ["pm4py/objects/conversion/bpmn/variants/to_petri_net.py:apply", "pm4py/objects/petri_net/utils/reduction.py:apply_simple_reduction"]}
{"id": "C104", "title": "Petri net to BPMN conversion keeps the traces", "statement": "Converting an accepting Petri net with arc weights one, a single start place and a single end place, in which every transition has an input and an output place, to BPMN (pm4py.convert_to_bpmn) gives a well-formed diagram whose token game produces exactly the traces the net accepts; the conversion gives a result if every place lies on a path from the start place; converting the diagram back to a Petri net, with or without the reduction, gives a net with the same traces. The reduction of exclusive gateways (bpmn.util.reduction) keeps the traces of every well-formed diagram, and ends if every node can be reached from a start event.", "quantifier": "every such accepting Petri net of any size, including unsound and unbounded ones, every order in which the reduction picks gateways, and every trace", "why_tests_cant": "the sets of traces are infinite, the order of reductions depends on set iteration, and equality has to hold for all nets", "anchors": ["pm4py/objects/conversion/wf_net/variants/to_bpmn.py:apply", "pm4py/objects/bpmn/util/reduction.py:reduce_xor_gateways", "pm4py/objects/conversion/bpmn/variants/to_petri_net.py:apply"]}
{"id": "C105", "title": "The playout of a directly-follows graph enumerates exactly its traces with their probabilities", "statement": "For a directly-follows graph with positive frequencies in which every start activity and every target of an edge has an outgoing edge or is an end activity: get_traces ends after a bounded number of rounds, never raises an exception, and gives every trace of the graph in which no activity occurs more often than max_no_occ_per_activity, exactly once, with its probability (share of the start activity times the shares of the next activities times the share of ending), and nothing else. get_trace_probability returns this probability, it is positive exactly for the traces of the graph, and the probabilities of different traces add up to at most 1. play_out returns different traces of the graph, at most max_no_variants, the most probable first; with the default settings and at most max_no_variants allowed traces it returns all of them and is not interrupted; and whenever it is not interrupted, every start activity, end activity and edge of an allowed trace occurs in a simulated trace, also with add_trace_if_takes_new_els_to_dfg and interrupt_simulation_when_dfg_complete.", "quantifier": "All directly-follows graphs with distinct entries and positive frequencies (for the playout: without dead ends), all bounds on the occurrences of an activity, all parameter settings, all orders among equally probable partial traces, all traces and sets of traces.", "why_tests_cant": "A test plays out a few graphs; that the enumeration is complete, free of duplicates, ends and gives probabilities adding up to at most 1 ranges over all graphs with cycles and all traces of unbounded length.", "anchors": ["pm4py/algo/simulation/playout/dfg/variants/classic.py:get_node_tr_probabilities", "pm4py/algo/simulation/playout/dfg/variants/classic.py:get_traces", "pm4py/algo/simulation/playout/dfg/variants/classic.py:apply", "pm4py/algo/simulation/playout/dfg/variants/classic.py:get_trace_probability", "pm4py/sim.py:play_out"]}
{"id": "C106", "title": "Converting logs to streams and dataframes and back loses nothing", "statement": "convert_to_event_log on a stream yields one trace per case identifier, in the order of the first events of the cases, with the attributes of the first event that begin with the case prefix (without the prefix) and the events of the stream with this identifier in their order, without these attributes; it fails exactly if an event has no case identifier. convert_to_event_stream yields the events of the traces one after the other, each with the attributes of its trace under the prefixed names, and with its deep copy (the default) leaves the log unchanged. For logs with distinct trace identifiers, no empty traces, event attributes that do not begin with the prefix and trace attributes that do not contain it: log to stream to log gives exactly the same log, and log to dataframe to log, with stream_postprocessing, gives the same log up to the order of the attributes. A stream converted to a dataframe and back has the same events, if missing values are dropped; otherwise exactly the attributes occurring in some event are added with a missing value.", "quantifier": "All logs and streams with the stated preconditions, all attribute names and values, all prefixes and identifier attributes.", "why_tests_cant": "A test converts a few logs; that nothing is lost, merged or reordered ranges over all logs of any size, interleavings of cases in the stream and attribute names.", "anchors": ["pm4py/objects/conversion/log/variants/to_event_log.py:__transform_event_stream_to_event_log", "pm4py/objects/conversion/log/variants/to_event_stream.py:__transform_event_log_to_event_stream", "pm4py/objects/conversion/log/variants/to_event_stream.py:__transform_dataframe_to_event_stream", "pm4py/objects/conversion/log/variants/to_event_stream.py:__postprocess_stream", "pm4py/objects/conversion/log/variants/to_data_frame.py:apply", "pm4py/convert.py:convert_to_event_log", "pm4py/convert.py:convert_to_event_stream", "pm4py/convert.py:convert_to_dataframe"]}
{"id": "C107", "title": "Batch discovery: intervals cover all events, are far apart, and are labelled as documented", "statement": "For the events of one activity and resource, with no event ending before it starts and a merge distance that is not negative: the detection ends; every event belongs to exactly one interval and the intervals contain nothing else; each interval reaches from the first start to the last end of its events; each interval begins more than the merge distance after the end of all intervals before it; two events whose times are at most the merge distance apart are in the same interval. Reported are exactly the intervals with at least the minimum number of events, so that events that are all close to each other and are numerous enough are in one reported batch. The type of a batch is Simultaneous, Batching on Start or Batching on End exactly if all starts and ends, only all starts, only all ends agree; otherwise it is Sequential exactly if each event, in the order of time, ends when the next one starts, and Concurrent if not. (That the events of a batch are near to each other is not promised: it is false, see the findings.)", "quantifier": "all finite lists of events with start, end and case, in any order, all merge distances >= 0, all minimum sizes", "why_tests_cant": "the merging goes on until nothing changes over a list that is partly a heap; a test fixes a few logs in which the order of the heap happens to be right", "anchors": ["pm4py/algo/discovery/batches/utils/detection.py:__merge_overlapping_intervals, __merge_near_intervals, __check_batch_type, __detect_single", "pm4py/algo/discovery/batches/variants/log.py:apply", "pm4py/discovery.py:discover_batches"]}
{"id": "C108", "title": "Interval and lifecycle formats: matching of starts and completions, and what lead and cycle time measure", "statement": "to_interval makes one event for every completion of a trace, with the timestamp of the completion as its end and, as its start, the timestamp of the first start of the same activity and instance before it that no completion has taken yet, or its own timestamp if there is none (this matching is unique); starts without completion and other transitions disappear; the events come in the order of their starts, ties in the order of their completions. to_lifecycle makes exactly a start and a completion for every event, ordered by time, then by the event they come from, then start before completion. If no event ends before it starts, the trace is ordered by starts and events of one activity and instance end in their order, then to_interval after to_lifecycle returns the same intervals, and the same trace if no two start together. For an interval trace ordered by starts, in which no event starts at the very moment when another before it ends, assign_lead_cycle_time gives every event as lead time the working time from the first start to the last end so far, as cycle time the part of it in which some event is running, as wasted time the rest, and as its own wasted time the working time between the last end before and its start.", "quantifier": "all finite traces with any attributes and any integer timestamps, all working calendars given as a predicate on seconds", "why_tests_cant": "queues per activity and instance over arbitrary interleavings, a round trip for all traces, and a measure of unions of arbitrary overlapping intervals under any calendar; tests fix a few traces", "anchors": ["pm4py/objects/log/util/interval_lifecycle.py:to_interval, to_lifecycle, assign_lead_cycle_time", "pm4py/objects/log/util/sorting.py:sort_timestamp_trace"]}
{"id": "C109", "title": "Encodings of activities with letters and characters are injective, ordered and reversible", "statement": "The codes activities_to_alphabet assigns to 0, 1, 2, ... are all words over the letters A to Z, each exactly once, ordered by length and then as in a dictionary. For a column of activities, every activity that occurs gets exactly one code, different activities different ones, a more frequent activity a code that comes earlier (so not a longer one), and no word before a used one is left out; the new column has no missing values, and looking its values up in the returned mapping gives the old column. form_encoding_dictio_from_two_logs (and the one for one log) give all activities of the logs different characters, none of them one of the characters that are to be avoided in regular expressions, so that two traces over these activities have the same encoding only if they are the same (the edit-distance alignments rely on this).", "quantifier": "all finite columns, all lists of activities and all traces over them", "why_tests_cant": "injectivity over arbitrarily many activities: the carry of the numbering without zero and the runs of avoided characters are hit only at some sizes", "anchors": ["pm4py/objects/log/util/activities_to_alphabet.py:apply", "pm4py/util/regex.py:get_new_char", "pm4py/objects/log/util/log_regex.py:form_encoding_dictio_from_two_logs, form_encoding_dictio_from_log, get_encoded_trace"]}
{"id": "C110", "title": "Samples, train/test splits, prefixes and artificial start/end events", "statement": "pick_chosen_points_list returns, for 0 < m <= n, m elements at increasing positions whose distances are n/m or one more. Sampling a dataframe keeps whole cases, as many as wanted or all, with their rows in order. split (event logs) puts every trace into exactly one of the two logs, floor(n*share)+1 (at most n) into the training log; split_train_test (dataframes) puts whole cases into the part their draw decides, rows in order, every row in exactly one part. get_prefixes_from_log cuts every trace to its first n events, for event logs and for dataframes (first n rows of every case, nothing else). insert_artificial_start_end gives every case of a dataframe one start event and one end event, with the rows of the case in the order of time between them (rows with equal times in their order), one millisecond before the first and after the last row; no other case appears and the rows are grouped by case; for event logs the start and end are put around the events of each trace as they are, one second away.", "quantifier": "all finite dataframes and logs, all shuffles and draws, all sizes and shares", "why_tests_cant": "positions computed with two roundings for all m and n; random choices; stable sorting of arbitrary interleaved cases with equal timestamps", "anchors": ["pm4py/util/points_subset.py:pick_chosen_points, pick_chosen_points_list", "pm4py/objects/log/util/dataframe_utils.py:sample_dataframe, insert_artificial_start_end", "pm4py/objects/log/util/split_train_test.py:split", "pm4py/objects/log/util/get_prefixes.py:get_prefixes_from_log", "pm4py/objects/log/util/artificial.py:insert_artificial_start_end", "pm4py/util/pandas_utils.py:insert_ev_in_tr_index", "pm4py/ml.py:split_train_test, get_prefixes_from_log"]}
{"id": "C111", "title": "The stochastic language of a log and the earth mover's distance between languages", "statement": "get_stochastic_language of a log has exactly the different traces as keys, each with its share of the traces, and the shares of a non-empty log sum up to 1. For two stochastic languages without an empty trace, the histograms that compute the earth mover's distance list every trace of either language once and in the same order, with its probability in the first and in the second language (0 when missing), and the distance between them (the least cost of a transport plan over the normalized edit distances) is between 0 and 1, and 0 exactly when every trace has the same probability in both languages.", "quantifier": "all logs; all pairs of stochastic languages (any number of traces and of activities) without an empty trace; all transport plans", "why_tests_cant": "The histograms only agree because the encodings of all traces are different and sorted alike, for any activities; that 0 means equal ranges over all plans and all languages, while tests compare a few logs.", "anchors": ["pm4py/algo/evaluation/earth_mover_distance/variants/pyemd.py:normalized_levensthein", "pm4py/algo/evaluation/earth_mover_distance/variants/pyemd.py:encode_two_languages", "pm4py/algo/evaluation/earth_mover_distance/variants/pyemd.py:apply", "pm4py/statistics/variants/log/get.py:get_language", "pm4py/stats.py:get_stochastic_language"]}
{"id": "C112", "title": "Performance DFG, passed times and service times measure all occurrences of a pair or activity", "statement": "The performance directly-follows graph has exactly the pairs of activities that directly follow each other in some trace, each once, and its value (min, max, sum, mean) is that of the waiting times of all occurrences of the pair, where an occurrence waits from the completion of the first event to the start of the second one, or 0 if they overlap; no value is negative, and the mean is between the minimum and the maximum; the frequency graph counts the same occurrences. The passed times of an activity have one entry per succeeding (preceding) activity with the average waiting time and the number of occurrences, and the overall value is the average over all single occurrences, 0 if there are none. The service times have every activity of the log once, with the measure of the durations of its events.", "quantifier": "all logs (any number of traces and events, any activities, any integer start and end timestamps, also negative durations), all four measures, all activities", "why_tests_cant": "That the weighted average over the entries is the average over the occurrences, and that no occurrence is lost or counted twice by the dictionaries, must hold for every log; tests check the value for a few logs.", "anchors": ["pm4py/algo/discovery/dfg/variants/performance.py:performance", "pm4py/algo/discovery/dfg/variants/native.py:native", "pm4py/statistics/passed_time/log/variants/pre.py:apply", "pm4py/statistics/passed_time/log/variants/post.py:apply", "pm4py/statistics/passed_time/log/variants/prepost.py:apply", "pm4py/statistics/service_time/log/get.py:apply"]}
