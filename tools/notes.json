{
 "C02": "False of the code: is_enabled checks arcs one by one, so two parallel arcs from a place with one token drive it to -1 (semantics.py:138-161). Proved for nets without parallel arcs.",
 "C04": {
  "status": "proved",
  "note": "Proved as stated (unit arc weights). Finding outside the statement: incidence_matrix.py:48-52 ignores arc weights, so for weighted nets the equation fails (C04_incidence_ignores_weights_refuted)."
 },
 "C09": "False of the code: petri_utils.py:34 compares in the wrong direction; refuted in both directions and the actual behaviour characterised.",
 "C10": "Proved for unit arc weights as stated; exw_net in Props_Align.v shows why: the product gives every arc weight 1.",
 "C11": {
  "status": "proved",
  "note": "Proved for unit arc weights and any non-negative costs. Finding: synchronous_product.py drops arc weights, so for weighted nets it is false (C11_weighted_nets_refuted)."
 },
 "C14": "For exact arithmetic, an exact LP solver (lp_optimal), solutions not within 0.001 below an integer (lp_gap) and any f-minimal heap; optimal against all alignments of cost at most MAX_ALLOWED_HEURISTICS = 10^15. Also terminates on bounded nets and agrees with Dijkstra.",
 "C15": {
  "status": "proved",
  "note": "Proved under the stated side conditions. Finding: when the worst case is 0 (empty trace, model accepting it for free) the code reports fitness 0 (C15_empty_trace_refuted)."
 },
 "C18": "Labels need decidable equality only. Degenerate trees (operators without children, loops with one child) are excluded.",
 "C19": {
  "status": "proved",
  "note": "For every order of the reduction rules. Finding outside the statement: a loop with a single child shares its final place with the context, X( *(a), b ) accepts 'b a' (C19_single_child_loop_refuted)."
 },
 "C20": {
  "status": "proved",
  "note": "Findings outside the statement: a single labelled leaf cannot be parsed back, labels with quotes break the parser (C20_root_leaf_refuted, C20_quote_refuted)."
 },
 "C21": {
  "status": "proved",
  "note": "Finding outside the statement: for interleaving the binary tree has a different language (C21_interleaving_refuted)."
 },
 "C22": {
  "status": "proved",
  "note": "C22_discovered is about the bottom-up computation of the code (nodes compared structurally, any set order); C22_footprints_exact is the same for the plain recursion. Findings outside the scope: equal leaves make get_bottomup_nodes miss the root and raise KeyError (C22_duplicates_refuted), OR nodes wrong for always and minimal length, loops with two redo children miss pairs."
 },
 "C23": "Model_IM covers algorithm.apply, IMUVCL, all four cuts and their projections, the base cases and all the fall-throughs (empty traces, activity once per trace, activity concurrent, strict tau loop, tau loop, flower), fold and tree_sort. Not modelled: the pandas/stream conversion of the log to variants, PARTIALORDER variants, IMd.",
 "C24": "Finding: the strict sequence cut and the loop projection can in principle fail (loop.py:185 calls _append_trace_to_redo_log with a missing argument; a strict cut with a single group would recurse forever); the theorem shows that neither is reachable.",
 "C25": "Also shows that fold and tree_sort keep the multiset of visible leaves.",
 "C28": {
  "status": "proved",
  "note": "Transition system at the granularity of critical sections. Refutations outside the scope: order with two or more pool threads (C28_order_refuted), stop before start (C28_stop_before_start_refuted), start after stop (C28_start_after_stop_refuted). Observers are registered before the first event; one caller of stop()."
 },
 "C29": {
  "status": "proved",
  "note": "C29_values_deadlock_refuted: values() and itervalues() self-deadlock."
 },
 "C30": {
  "status": "proved",
  "note": "Proved within the stated scope. Finding: events of unknown activity before the first known one are forgotten (the first known event overwrites the counter), so without the scope it is false (C30_unknown_start_refuted)."
 },
 "C31": "Proved over an arbitrary number type; no axioms.",
 "C32": {
  "status": "proved",
  "note": "Proved within the stated scope. Findings: always_after / always_before count pairs of positions, so the log {<a,b,b>,<a>} gets 'b always after a' and does not fit its own skeleton (C32_always_after_refuted); for dataframes len(log) is the number of events, so the noise threshold of activ_freq differs from event logs (C32_dataframe_noise_refuted)."
 },
 "C34": {
  "status": "proved",
  "note": "Findings outside the scope of the statement, as theorems: SUCCESSION is reported on traces that contain neither activity (C34_succession_refuted); CHAINRESPONSE is reported for <a,b,b>, which satisfies it (C34_chain_response_refuted); ALTRESPONSE iterates over model[RESPONSE]: KeyError, or the wrong constraints (C34_alt_response_refuted); ALTPRECEDENCE/CHAINPRECEDENCE are wrong in both directions (C34_alt_precedence_refuted); NONSUCCESSION/NONCHAINSUCCESSION are never checked (C34_unchecked_refuted); NONCOEXISTENCE is checked twice, so the fitness can be negative (C34_fitness_refuted)."
 },
 "C36": {
  "status": "proved",
  "note": "Proved as stated. Finding outside the statement: for a relation that is not transitive, redundant edges with detours longer than two are kept (C36_not_transitive_refuted)."
 },
 "C38": {
  "status": "proved",
  "note": "Proved for every filter listed, both modes. Findings (proved as _refuted theorems, outside the scope of the statement): eventually_follows with timestamp bounds compares the timestamps of the first events of the trace (trace[i], trace[i+1]) instead of the matched ones (ltl_checker.py:110-111); the two modes of apply_numeric overlap."
 },
 "C39": "Proved over the stdlib reals (axioms listed in DESIGN.md); floating-point rounding is not modelled.",
 "C40": {
  "status": "proved",
  "note": "C40_compressed_refuted: the msd of util/compression/util.py (not used by the API) is negative."
 },
 "C41": {
  "status": "proved",
  "note": "Finding: argmax returns None for a non-empty list all of whose elements equal the argument (C41_argmax_none_refuted)."
 },
 "C42": {
  "status": "proved",
  "note": "Finding outside the statement: an OR with one child yields dead transitions (C42_single_child_or_refuted)."
 },
 "C44": {
  "status": "proved",
  "note": "Finding: the documented meaning (number of occurrences) is refuted in general (C44_vertex_frequencies_refuted); what is computed is proved."
 },
 "C46": "IMf with a positive threshold gives up fitness by design (ex_imf_filters).",
 "C47": "Model_Filter.v models the log (not pandas) variants of the filters; percentages are exact rationals instead of floats.",
 "C48": "The between model lists the stretches; the new case identifiers built from the case id and the stretch number are not modelled.",
 "C49": {
  "status": "proved",
  "note": "Each scope restriction is needed: refutation theorems (C49_*_refuted) give concrete dataframes on which the two implementations differ: A_next_B_next_C compares row positions across a merge so repeated activities are lost; four-eyes on dataframes compares only one pair of resources; path performance pairs events across cases; the dataframe intersecting filter uses open bounds; repetitions with minimum 0 drops cases without the value; negative numeric mode filters events rather than cases; between with equal activities does not share the boundary event. Other findings, read but not modelled: filter_df_keeping_spno_activities returns its input (attributes_filter.py:308); path strings joined by commas may collide; the activity-split and consecutive-grouping identifiers may collide; eventually_follows with timestamps and three or more values raises KeyError; infix_to_regex does not escape."
 },
 "C50": {
  "status": "proved",
  "note": "C50_concurrency_refuted shows that the indivisibility condition for concurrency is needed: a valid concurrency cut {1,2},{3,4} is missed because groups without start or end activity are merged with an arbitrary neighbour."
 },
 "C51": {
  "status": "proved",
  "note": "Findings outside the scope: with arc weights > 1 the balance p+m=c+r fails (C51_balance_refuted: add_missing_tokens adds the whole weight but counts weight minus marking); per-place missing tokens are counted once per variant instead of once per case (C51_places_refuted, token_replay.py:522); with stop_immediately_unfit the fitness can be negative (C51_fitness_refuted)."
 },
 "C52": {
  "status": "proved",
  "note": "Findings: trace_is_fit ignores missing tokens of the final marking, so a 'fit' trace can have fitness < 1 (C52_fit_refuted); with duplicate labels accepted traces can be judged unfit (C52_complete_refuted)."
 },
 "C53": {
  "status": "proved",
  "note": "Finding: with CONSIDER_ACTIVITIES_NOT_IN_MODEL_IN_FITNESS an unknown activity of one case makes all the cases replayed after it unfit (C53_refuted)."
 },
 "C54": {
  "status": "proved",
  "note": "Finding: with empty markings the evaluation is 0 although every trace has fitness 1 (C54_perfect_refuted)."
 },
 "C56": {
  "status": "proved",
  "note": "Finding: one-event cases of an activity that occurs in no edge are lost by pm4py.convert_to_petri_net (C56_single_refuted)."
 },
 "C57": {
  "status": "proved",
  "note": "The search is modelled with an arbitrary heap order on equal costs; the proof is a crossing argument for the closed set that ignores costs. The _refuted theorems are findings about the returned list of moves only: moves on the model before the first event are dropped, and a log move after the end of the model shows the random end node name (cost and fitness are right)."
 },
 "C58": "Costs and fitness of apply_log, including the dictionary of already aligned traces.",
 "C59": {
  "status": "proved",
  "note": "_refuted: on an unbounded net the playout may run for ever although the length of traces is bounded (silent transitions), hence the conditional statement plus termination for nets with finitely many reachable markings."
 },
 "C60": "fm_leq_accepted is proved for the number of traces only (the other theorems take the default false).",
 "C61": {
  "status": "proved",
  "note": "Round trip as equality of the three dictionaries (including their order), for strings and files (universal newlines), for every set order. Findings, proved as _refuted theorems: names with white space at the ends come back changed, and a graph with an isolated start or end activity (a log with a trace of one event whose activity occurs nowhere else) cannot be exported (ValueError)."
 },
 "C62": {
  "status": "proved",
  "note": "entire_event_log, trace_by_trace (keep_unique=False) and the causal alpha relation; log given as its traces of activities."
 },
 "C63": {
  "status": "proved",
  "note": "Findings: fitness is 1 when the log has no directly-follows pair although first activities deviate (C63_no_pairs_refuted); an empty log is reported as not fitting (C63_empty_log_refuted). Floats are rationals."
 },
 "C64": {
  "status": "proved",
  "note": "The outer loop only ranges over the original singleton pairs and the inner one over a snapshot; completeness of the merge is proved nevertheless. Activities following themselves stay unconnected (C64_self_loops)."
 },
 "C65": {
  "status": "proved",
  "note": "C65_sound (any tree, any draws) and C65_complete (trees without inclusive choice, binary loops) together characterise the generated logs; C65_parallel: the shuffled pops never fail. Findings outside the scope: an inclusive choice makes every playout fail (C65_or_refuted) and the third child of a loop is never executed (C65_loop3_refuted). Not modelled: timestamps, the in-place shuffle of the user's tree for interleavings."
 },
 "C66": {
  "status": "proved",
  "note": "C66_language, C66_soundness, C66_visible, C66_terminates. Findings outside the conditions: a marked place with one arc in and one out is removed together with its token and the language becomes empty (C66_marked_refuted); arc weights are ignored (C66_weights_refuted); the exit rule can create parallel arcs, for which the code's own enabling check (C02) accepts a trace the original net does not have (C66_parallel_refuted)."
 },
 "C67": {
  "status": "proved",
  "note": "Findings (refutations): C67_fitting_trace_refuted - a fitting trace is reported with a visible deviation (cost 10000 instead of 1); C67_optimal_refuted - non-optimal on a deterministic net without silent transitions (20000 instead of 10000). Positive side proved for all nets: validity, soundness of cost < 10000, completeness, termination, upper bound, exact best worst cost, fitness in [0,1]; cost 0 for fitting traces of deterministic silent-free nets."
 },
 "C68": {
  "status": "proved",
  "note": "Proved in the stated scope. Refuted outside it (findings): with two concurrent silent transitions the eventually-enabled helper overwrites its dictionary entry and misses transitions (C68_eventually_enabled_refuted); only the markings of shortest silent runs are counted, so continuations reachable by longer silent runs are not activated (C68_all_continuations_refuted); on a DataFrame len(log) is the number of events, so the empty prefix is weighted by events instead of cases (C68_dataframe_refuted); a comma inside an activity name merges distinct prefixes (C68_prefix_key_refuted). Not modelled: the multiprocessing branch (which drops the parameters), the easy-soundness pre-check, the internals of token replay in the token variant (abstracted as an arbitrary activation function)."
 },
 "C69": {
  "status": "proved",
  "note": "Findings outside the statement: a log all of whose traces fit has log_fitness < 1 as soon as a silent transition is needed, because unrounded costs are summed while trace fitness rounds (C69_fitting_log_refuted); empty traces of a model accepting the empty trace give 0 percent although log fitness is 1 (C69_empty_traces_refuted)."
 },
 "C70": {
  "status": "proved",
  "note": "Generalization over the stdlib reals (axioms in DESIGN.md); simplicity over rationals. Floating-point rounding not modelled."
 },
 "C71": {
  "status": "proved",
  "note": "Language, soundness, existence of the result. Finding (C71_empty_order_refuted): a partial order without children is accepted by the constructor but its net has a join without inputs, so completion is not proper."
 },
 "C72": {
  "status": "proved",
  "note": "Findings: interleaving is turned into concurrency (C72_interleaving_refuted); sequences of three or more yield a non-transitive order that validate_partial_orders rejects (C72_transitive_refuted)."
 },
 "C73": {
  "status": "proved",
  "note": "Language, well-formedness, termination, size of choices and absence of nested choices proved for all models. Findings kept as _refuted theorems: the order of the simplified model need not be transitive although all orders of the input are (a before PO{b before c} becomes a->b->c without a->c, which validate_partial_orders rejects); simplify is not idempotent (XOR(tau, XOR(tau, LOOP(tau, a)))). Not modelled: simplify_using_frequent_transitions (which turns XOR(tau, tau) into a visible transition labelled None)."
 },
 "C74": {
  "status": "proved",
  "note": "Model_Interval.concurrent_activities. C74_backward_refuted: with an event completing before it starts, overlapping pairs behind it are lost (outside the scope of the claim)."
 },
 "C75": {
  "status": "proved",
  "note": "Both implementations modelled; C75_variants proves they agree on instantaneous time-ordered logs."
 },
 "C76": {
  "status": "proved",
  "note": "Finding (C76_total_refuted): the last busy period is never added to the production time, so a single event of ten units has cycle time 0. Timestamps are integers, not floats."
 },
 "C77": {
  "status": "proved",
  "note": "intervaltree's semantics (a set of intervals; tree[a:b] = intervals with begin < b and end > a; null intervals raise) is trusted. Finding (C77_same_span_refuted): cases with identical span are counted once."
 },
 "C78": {
  "status": "proved",
  "note": "Finding (C78_zero_refuted): a required number of 0 in filter_ocel_object_per_type_count still drops the events without an object of the type. Relations are counted, not distinct objects."
 },
 "C79": {
  "status": "proved",
  "note": "An unknown identifier with level > 1 raises a KeyError (None in the model, see ex_objects)."
 },
 "C80": {
  "status": "proved",
  "note": "networkx's connected components are modelled as in C23. Finding (C80_isolated_refuted): an object meeting no other object is a component of size 1 for filter_ocel_cc_object, but cc_length, cc_otype and cc_activity always drop it."
 },
 "C81": {
  "status": "proved",
  "note": "Finding (C81_separator_refuted): the concatenation act + '@#@#' + type confuses combinations even if no name contains the separator."
 },
 "C82": {
  "status": "proved",
  "note": "pandas' inner merge is trusted to keep the order of the left table. Finding (C82_twice_refuted): two relations with different qualifiers duplicate the event in the flattened case."
 },
 "C83": {
  "status": "proved",
  "note": "Sets of pairs are modelled by membership."
 },
 "C84": {
  "status": "proved",
  "note": "C84_prefix_variant_refuted is a FINDING: a variant that is a proper prefix of a variant inserted before ends in a node that is not marked final, and the marks depend on the order of the variants (a set for dataframes)."
 },
 "C85": {
  "status": "proved",
  "note": "C85_stutter_refuted is a FINDING: if an event leaves a view unchanged that has no state yet, two states with the same name are created; later lookups by name pick either, depending on the iteration order of a set of objects, and a trace of the log need not be a path of the system. The path theorem is therefore stated for logs without such events."
 },
 "C86": {
  "status": "proved",
  "note": ""
 },
 "C87": {
  "status": "proved",
  "note": "C87_short_circuit: exact for distinct names; C87_complete: never rejects a workflow net whatever the names; C87_check_wfnet: exact characterisation of check_wfnet. Findings: check_wfnet uses an undirected graph, so it accepts nets that are not workflow nets (C87_undirected_refuted); the short-circuit check identifies nodes by name, so a place and a transition of equal name are merged and a non-workflow net can be accepted (C87_same_name_refuted)."
 },
 "C88": {
  "status": "proved",
  "note": "The MILP solver is modelled as an oracle for feasibility over the non-negative integers. C88_runs and C88_language hold under the stated precondition. Findings: a redundant place that keeps tokens at the end is removed although the original net then never reaches the final marking (C88_final_refuted); rows accumulate across places, so if the alphabetically first place is initially marked the integer program allows a non-zero offset and the (source) place itself is removed: its transition can then fire any number of times (C88_first_marked_refuted)."
 },
 "C89": {
  "status": "proved",
  "note": "C89_partition, C89_runs, C89_traces. Findings: arc weights are dropped (add_arc_from_to is called without weight), so with weights the components accept runs the net does not (C89_weights_refuted); duplicate-labelled transitions are added to the graph under their label while arcs use names, so they are not kept together and can be shared by two components, which makes the decomposition invalid for duplicate labels (C89_duplicates_refuted)."
 },
 "C90": {
  "status": "proved",
  "note": "C90_pnml_roundtrip (non-empty final marking) and C90_empty_final_guessed. Findings: C90_prom5_unreadable (a file written with export_prom5=True cannot be read back as soon as the net has a visible transition: the importer looks up the activity attribute that the exporter does not write), C90_empty_label_refuted (an empty label comes back as the transition's name). The XML library, layout, properties, stochastic information are not modelled."
 },
 "C91": {
  "status": "proved",
  "note": "C91_ptml_roundtrip, C91_ptml_language, C91_interleaving_unwritable. Findings outside the scope: C91_loop_exit_lost_refuted (a loop with three children at the root loses its exit child) and C91_loop_exit_moved_refuted (inside a sequence the loop and its exit child are moved to the end of the sequence). The XML library is trusted; the random identifiers are any injective function of nodes."
 },
 "C92": {
  "status": "proved",
  "note": "C92_business_time (exact characterization, with termination) and C92_business_time_exact. Findings: C92_one_second_pause_refuted (a one-second pause between slots is counted as business time), C92_wrapping_slot_refuted (a slot that reaches past the end of the week is not seen on the next Monday). Times are integers (ticks); float rounding is not modelled; time zones are dropped as in the code."
 },
 "C93": {
  "status": "proved",
  "note": "Exact for handover of work and working together; sound but, as the property says, not exact for subcontracting. Findings: (1) C93_versions_agree_refuted: working_together on a dataframe divides by the number of events, on an event log by the number of cases, so the two versions disagree. (2) C93_subcontracting_exact_refuted: in subcontracting the counting loop is inside `if res_i not in sum_i_to_j`, so only the first pattern of every resource in the whole log is counted: with the cases a-b-a and a-c-a there is no connection (a, c)."
 },
 "C94": {
  "status": "proved",
  "note": "Finding, C94_repeated_refuted: without 'no event related twice to the same object' the edges are wrong: in an OCEL 2.0 log where an event is related to an object with two qualifiers, the event is recorded as directly following itself. Not modelled: business hours in the performance."
 },
 "C95": {
  "status": "proved",
  "note": "Rational instead of float arithmetic; the name-based sorting of roles and the tie-breaking among candidates are arbitrary (the theorem holds for each)."
 },
 "C96": {
  "status": "proved",
  "note": "Full for the quantity each template measures. Findings: C96_precedence_refuted (b without a is not counted against precedence, so a constraint of full confidence can be violated by a case of the log), C96_alternate_refuted (alternate/chain response and precedence are tested as successions), C96_nonsuccession_refuted (non-succession is the negation of succession), C96_empty_refuted (IndexError of init on a case without considered activity). Ratios are rational numbers; only one threshold given is modelled as failing."
 },
 "C97": {
  "status": "proved",
  "note": "Scope: texts without white space at the start of a tag or of a text between tags (every exported file). Finding C97_untidy_refuted: for a tag such as '< event>' the log depends on the alignment of the 4096-byte chunks."
 },
 "C98": {
  "status": "proved",
  "note": "Findings (refuted outside the scope): entities are never decoded by the default importer (a & b comes back as a &amp; b), a value with a double quote is read wrongly, nested attributes lose their children, lists come back as dictionaries whose keys are cut to two characters when written again, classifier keys with spaces are split, numpy values become strings. 8-bit characters; encoding, compression and the date and float formats are parameters."
 },
 "C99": {
  "status": "proved",
  "note": "C99_edges, C99_nodes, C99_and_measures, C99_asymmetric, C99_threshold_monotone hold for every log and all rational thresholds (floating point rounding left out). Findings kept as refutations: C99_min_dfg_refuted (the edges of a short loop are added in both directions although only one was tested against min_dfg_occurrences), C99_loop_count_refuted (the input connection of a loop edge carries the count of the opposite relation). C99_isolated: a log that only alternates between two activities yields isolated nodes."
 },
 "C100": {
  "status": "proved",
  "note": "Model_ToTree models the four grouping rules, the insertion of invisible transitions, the main loop, folding and sorting. Labels are trees instead of their printed text (round trip: C20). Interval semantics (transitions labelled with languages start, emit, finish) relates every intermediate net to the input. FINDINGS kept as theorems: C100_dead_refuted (net with dead transitions gets a tree with extra traces), C100_weights_refuted (arc weights ignored), C100_single_refuted (single-transition net is always rejected). Completeness (every block-structured net is converted) is not claimed."
 },
 "C101": {
  "status": "proved",
  "note": "C101_exact characterises the answer by an inductive relation (Spec_TreeUtil); equivalence and language preservation follow. Finding C101_interleaving_refuted: None for INTERLEAVING."
 },
 "C102": {
  "status": "proved",
  "note": "C102_reduction: totality, inclusion and equality over the trace's activities; C102_trace; C102_general also for inclusive choices. Finding C102_duplicates_refuted: bottomup_nodes[-1] is not the root for X(->(a,b),->(b,a)); the reduced tree rejects the fitting trace."
 },
 "C103": {
  "status": "proved",
  "note": "C103_language for both settings of enable_reduction; C103_total; C103_reduction_soundness. Scope: no inclusive gateways (their extra transitions are not modelled), no nodes the conversion leaves out (subprocesses, intermediate events); default use_id=False."
 },
 "C104": {
  "status": "proved",
  "note": "Nodes of the diagram carry names saying what they were made for (uuids in the code). Findings: C104_reduction_ends_refuted: reduce_xor_gateways loops forever on a gateway whose only flow leads to itself (removing the gateway and adding the flow g->g adds the gateway again), which convert_to_bpmn reaches for nets with an unconnected silent cycle; nets with several start places or tokens get an exclusive choice among them, so they are out of scope, as are arc weights (ignored by the conversion) and transitions without input or output places."
 },
 "C105": {
  "status": "proved",
  "note": "Model_DfgPlay models the functions of the variant; probabilities are exact rationals (the code adds logarithms of floats), ties in the heap are broken arbitrarily, and the time limit is left out. The hypothesis without dead ends is needed: C105_dead_end_refuted shows that a start activity without outgoing edge that is no end activity makes the enumeration raise a KeyError. C105_example_enumeration is a concrete run."
 },
 "C106": {
  "status": "proved",
  "note": "Model_LogConv; values have decidable equality and pandas is modelled as keeping values (columns in order of appearance, missing cells). C106_example is a proper log. Findings, each a theorem: C106_changed_refuted (convert_to_dataframe turns off the deep copy and adds the case attributes to the events of the log that is given; C106_again: harmless for a second conversion), C106_missing_refuted (by default attributes missing in an event come back as NaN attributes), C106_names_refuted (str.replace removes every occurrence of the prefix in a name: showcase:id becomes showid), C106_empty_refuted (traces without events are lost)."
 },
 "C107": {
  "status": "proved",
  "note": "Model_Batches, with heapq as in the standard library; integer timestamps. Left out: grouping by activity and resource, sorting of the result; intervals with equal times are not compared further. C107_example: two batches far apart. Finding C107_far_refuted: because __merge_near_intervals scans a heap (with items deleted in the middle) as if it were a sorted list, events that are arbitrarily far from all others are put into a batch with them, even for events in the order of time."
 },
 "C108": {
  "status": "proved",
  "note": "Model_Lifecycle, a trace at a time; left out: the guards for logs that already have the format, attributes of log and trace, the marks of to_lifecycle, durations and ratios; BusinessHours is a function that counts working seconds (C92). C108_example and C108_example_fifo: concrete traces. Findings: C108_overtaking_refuted (an event that runs inside another of the same activity takes its start, durations change in the round trip), C108_touching_refuted (an event that starts exactly when all before it have ended adds nothing to lead and cycle time: neither st > max_et nor st < max_et)."
 },
 "C109": {
  "status": "proved",
  "note": "Model_Encode; activities are numbers, characters are code points without the upper limit of Python (more than a million activities), ties of value_counts in the order of appearance. C109_example: the carries at 26, 702; C109_example_characters: the skipped characters after 8."
 },
 "C110": {
  "status": "proved",
  "note": "Model_Sample; rows have case, timestamp and the rest; random.shuffle is any permutation, draws are any decisions, a share is a fraction (the code: floats); missing timestamps and extreme timestamps are left out. C110_example: two interleaved cases with equal timestamps. Finding C110_split_refuted: the + 1 in split makes the training log one trace too large (80 per cent of five traces leave no test trace; share 0 still trains)."
 },
 "C111": {
  "status": "proved",
  "note": "The external library pyemd is not modelled: the theorem is about every value that satisfies the specification of the distance (a least-cost plan attains it). Probabilities are rationals (the code: floats). FINDING C111_empty_refuted: when one of the languages has an empty trace there is no distance at all: the normalized edit distance of the empty trace with itself divides by zero."
 },
 "C112": {
  "status": "proved",
  "note": "Without business hours (C92 is about these). The measures median, stdev, raw_values and all are not modelled. Rationals instead of floats."
 }
}