{
 "claims": [
  {
   "property": "C01",
   "status": "proved",
   "theorems": [
    "C01_execute_fires",
    "C01_execute_none",
    "C01_execute_seq_run",
    "C01_weak_execute_fires"
   ],
   "note": ""
  },
  {
   "property": "C02",
   "status": "partial",
   "theorems": [
    "C02_parallel_arcs_negative_refuted",
    "C02_no_negative_partial"
   ],
   "note": "False of the code: is_enabled checks arcs one by one, so two parallel arcs from a place with one token drive it to -1 (semantics.py:138-161). Proved for nets without parallel arcs."
  },
  {
   "property": "C03",
   "status": "proved",
   "theorems": [
    "C03_marking_algebra",
    "C03_marking_add_sub_counts"
   ],
   "note": ""
  },
  {
   "property": "C04",
   "status": "proved",
   "theorems": [
    "C04_marking_equation",
    "C04_incidence_ignores_weights_refuted"
   ],
   "note": "Proved as stated (unit arc weights). Finding outside the statement: incidence_matrix.py:48-52 ignores arc weights, so for weighted nets the equation fails (C04_incidence_ignores_weights_refuted)."
  },
  {
   "property": "C05",
   "status": "proved",
   "theorems": [
    "C05_execute_monotone"
   ],
   "note": ""
  },
  {
   "property": "C06",
   "status": "proved",
   "theorems": [
    "C06_reachability_graph_exact",
    "C06_reachability_graph_terminates"
   ],
   "note": ""
  },
  {
   "property": "C07",
   "status": "proved",
   "theorems": [
    "C07_inhibitor_reset"
   ],
   "note": ""
  },
  {
   "property": "C08",
   "status": "proved",
   "theorems": [
    "C08_trace_net_language",
    "C08_trace_net_unique_run"
   ],
   "note": ""
  },
  {
   "property": "C09",
   "status": "partial",
   "theorems": [
    "C09_is_sub_marking_refuted",
    "C09_is_sub_marking_actual"
   ],
   "note": "False of the code: petri_utils.py:34 compares in the wrong direction; refuted in both directions and the actual behaviour characterised."
  },
  {
   "property": "C10",
   "status": "proved",
   "theorems": [
    "C10_sync_product_alignments"
   ],
   "note": "Proved for unit arc weights as stated; exw_net in Props_Align.v shows why: the product gives every arc weight 1."
  },
  {
   "property": "C11",
   "status": "proved",
   "theorems": [
    "C11_dijkstra_valid",
    "C11_dijkstra_valid_costs",
    "C11_weighted_nets_refuted"
   ],
   "note": "Proved for unit arc weights and any non-negative costs. Finding: synchronous_product.py drops arc weights, so for weighted nets it is false (C11_weighted_nets_refuted)."
  },
  {
   "property": "C12",
   "status": "proved",
   "theorems": [
    "C12_dijkstra_optimal",
    "C12_search_optimal"
   ],
   "note": ""
  },
  {
   "property": "C13",
   "status": "proved",
   "theorems": [
    "C13_none_means_none",
    "C13_terminates"
   ],
   "note": ""
  },
  {
   "property": "C14",
   "status": "proved",
   "theorems": [
    "C14_astar_optimal",
    "C14_astar_search",
    "C14_astar_terminates",
    "C14_astar_dijkstra_agree"
   ],
   "note": "For exact arithmetic, an exact LP solver (lp_optimal), solutions not within 0.001 below an integer (lp_gap) and any f-minimal heap; optimal against all alignments of cost at most MAX_ALLOWED_HEURISTICS = 10^15. Also terminates on bounded nets and agrees with Dijkstra."
  },
  {
   "property": "C15",
   "status": "proved",
   "theorems": [
    "C15_fitness",
    "C15_empty_trace_refuted"
   ],
   "note": "Proved under the stated side conditions. Finding: when the worst case is 0 (empty trace, model accepting it for free) the code reports fitness 0 (C15_empty_trace_refuted)."
  },
  {
   "property": "C16",
   "status": "proved",
   "theorems": [
    "C16_log_is_pointwise",
    "C16_dijkstra_log"
   ],
   "note": ""
  },
  {
   "property": "C17",
   "status": "proved",
   "theorems": [
    "C17_levenshtein_minimal",
    "C17_levenshtein_metric"
   ],
   "note": ""
  },
  {
   "property": "C18",
   "status": "proved",
   "theorems": [
    "C18_fold_language",
    "C18_fold_normal_form",
    "C18_tree_sort_language"
   ],
   "note": "Labels need decidable equality only. Degenerate trees (operators without children, loops with one child) are excluded."
  },
  {
   "property": "C19",
   "status": "proved",
   "theorems": [
    "C19_language",
    "C19_exists",
    "C19_reduction_terminates",
    "C19_single_child_loop_refuted"
   ],
   "note": "For every order of the reduction rules. Finding outside the statement: a loop with a single child shares its final place with the context, X( *(a), b ) accepts 'b a' (C19_single_child_loop_refuted)."
  },
  {
   "property": "C20",
   "status": "proved",
   "theorems": [
    "C20_parse_show",
    "C20_show_injective",
    "C20_root_leaf_refuted",
    "C20_quote_refuted"
   ],
   "note": "Findings outside the statement: a single labelled leaf cannot be parsed back, labels with quotes break the parser (C20_root_leaf_refuted, C20_quote_refuted)."
  },
  {
   "property": "C21",
   "status": "proved",
   "theorems": [
    "C21_binary_language",
    "C21_binary_shape",
    "C21_interleaving_refuted"
   ],
   "note": "Finding outside the statement: for interleaving the binary tree has a different language (C21_interleaving_refuted)."
  },
  {
   "property": "C22",
   "status": "proved",
   "theorems": [
    "C22_discovered",
    "C22_min_length",
    "C22_duplicates_refuted",
    "C22_or_min_length_refuted",
    "C22_footprints_exact",
    "C22_or_always_refuted",
    "C22_loop3_refuted"
   ],
   "note": "C22_discovered is about the bottom-up computation of the code (nodes compared structurally, any set order); C22_footprints_exact is the same for the plain recursion. Findings outside the scope: equal leaves make get_bottomup_nodes miss the root and raise KeyError (C22_duplicates_refuted), OR nodes wrong for always and minimal length, loops with two redo children miss pairs."
  },
  {
   "property": "C23",
   "status": "proved",
   "theorems": [
    "C23_fitness"
   ],
   "note": "Model_IM covers algorithm.apply, IMUVCL, all four cuts and their projections, the base cases and all the fall-throughs (empty traces, activity once per trace, activity concurrent, strict tau loop, tau loop, flower), fold and tree_sort. Not modelled: the pandas/stream conversion of the log to variants, PARTIALORDER variants, IMd."
  },
  {
   "property": "C24",
   "status": "proved",
   "theorems": [
    "C24_termination",
    "C24_deterministic"
   ],
   "note": "Finding: the strict sequence cut and the loop projection can in principle fail (loop.py:185 calls _append_trace_to_redo_log with a missing argument; a strict cut with a single group would recurse forever); the theorem shows that neither is reachable."
  },
  {
   "property": "C25",
   "status": "proved",
   "theorems": [
    "C25_leaves"
   ],
   "note": "Also shows that fold and tree_sort keep the multiset of visible leaves."
  },
  {
   "property": "C26",
   "status": "proved",
   "theorems": [
    "C26_live_equals_batch",
    "C26_interleaving_irrelevant"
   ],
   "note": ""
  },
  {
   "property": "C27",
   "status": "proved",
   "theorems": [
    "C27_edge_counts",
    "C27_edge_counts_once_per_case",
    "C27_start_end_counts",
    "C27_conservation",
    "C27_total"
   ],
   "note": ""
  },
  {
   "property": "C28",
   "status": "proved",
   "theorems": [
    "C28_exactly_once",
    "C28_at_most_once",
    "C28_stop_terminates",
    "C28_mail_man_never_dies",
    "C28_order_one_thread",
    "C28_order_refuted",
    "C28_stop_before_start_refuted",
    "C28_start_after_stop_refuted"
   ],
   "note": "Transition system at the granularity of critical sections. Refutations outside the scope: order with two or more pool threads (C28_order_refuted), stop before start (C28_stop_before_start_refuted), start after stop (C28_start_after_stop_refuted). Observers are registered before the first event; one caller of stop()."
  },
  {
   "property": "C29",
   "status": "proved",
   "theorems": [
    "C29_dictionary_calls_return",
    "C29_values_deadlock_refuted"
   ],
   "note": "C29_values_deadlock_refuted: values() and itervalues() self-deadlock."
  },
  {
   "property": "C30",
   "status": "proved",
   "theorems": [
    "C30_counts_deviations",
    "C30_counts_from_first_known",
    "C30_status",
    "C30_terminate_forgets",
    "C30_unknown_start_refuted"
   ],
   "note": "Proved within the stated scope. Finding: events of unknown activity before the first known one are forgotten (the first known event overwrites the counter), so without the scope it is false (C30_unknown_start_refuted)."
  },
  {
   "property": "C31",
   "status": "proved",
   "theorems": [
    "C31_stream_equals_batch"
   ],
   "note": "Proved over an arbitrary number type; no axioms."
  },
  {
   "property": "C32",
   "status": "proved",
   "theorems": [
    "C32_equivalence",
    "C32_never_together",
    "C32_directly_follows",
    "C32_activ_freq",
    "C32_always_after_complete",
    "C32_always_before_complete",
    "C32_always_after_exact",
    "C32_always_before_exact",
    "C32_self_conformance",
    "C32_always_after_refuted",
    "C32_noise_monotone",
    "C32_equivalence_noise",
    "C32_directly_follows_noise",
    "C32_activ_freq_noise",
    "C32_dataframe",
    "C32_dataframe_noise_refuted"
   ],
   "note": "Proved within the stated scope. Findings: always_after / always_before count pairs of positions, so the log {<a,b,b>,<a>} gets 'b always after a' and does not fit its own skeleton (C32_always_after_refuted); for dataframes len(log) is the number of events, so the noise threshold of activ_freq differs from event logs (C32_dataframe_noise_refuted)."
  },
  {
   "property": "C33",
   "status": "proved",
   "theorems": [
    "C33_total",
    "C33_fitness_range",
    "C33_fit",
    "C33_log"
   ],
   "note": ""
  },
  {
   "property": "C34",
   "status": "proved",
   "theorems": [
    "C34_exact",
    "C34_succession",
    "C34_succession_refuted",
    "C34_chain_response_sound",
    "C34_chain_response_refuted",
    "C34_alt_response_refuted",
    "C34_alt_precedence_refuted",
    "C34_unchecked_refuted",
    "C34_fitness",
    "C34_fitness_refuted",
    "C34_defined"
   ],
   "note": "Findings outside the scope of the statement, as theorems: SUCCESSION is reported on traces that contain neither activity (C34_succession_refuted); CHAINRESPONSE is reported for <a,b,b>, which satisfies it (C34_chain_response_refuted); ALTRESPONSE iterates over model[RESPONSE]: KeyError, or the wrong constraints (C34_alt_response_refuted); ALTPRECEDENCE/CHAINPRECEDENCE are wrong in both directions (C34_alt_precedence_refuted); NONSUCCESSION/NONCHAINSUCCESSION are never checked (C34_unchecked_refuted); NONCOEXISTENCE is checked twice, so the fitness can be negative (C34_fitness_refuted)."
  },
  {
   "property": "C35",
   "status": "proved",
   "theorems": [
    "C35_closure_terminates",
    "C35_closure_correct",
    "C35_is_strict_partial_order"
   ],
   "note": ""
  },
  {
   "property": "C36",
   "status": "proved",
   "theorems": [
    "C36_reduction",
    "C36_reduction_least",
    "C36_not_transitive_refuted"
   ],
   "note": "Proved as stated. Finding outside the statement: for a relation that is not transitive, redundant edges with detours longer than two are kept (C36_not_transitive_refuted)."
  },
  {
   "property": "C37",
   "status": "proved",
   "theorems": [
    "C37_activities_percentage",
    "C37_paths_percentage",
    "C37_keep_connected",
    "C37_successors",
    "C37_to_activity",
    "C37_from_activity",
    "C37_contain_activity"
   ],
   "note": ""
  },
  {
   "property": "C38",
   "status": "proved",
   "theorems": [
    "C38_start_activities",
    "C38_end_activities",
    "C38_eventually_follows",
    "C38_A_next_B_next_C",
    "C38_four_eyes",
    "C38_different_persons",
    "C38_paths",
    "C38_path_performance",
    "C38_rework",
    "C38_repetitions",
    "C38_attribute_values",
    "C38_trace_attribute",
    "C38_numeric",
    "C38_case_size",
    "C38_ncases",
    "C38_case_performance",
    "C38_traces_contained",
    "C38_traces_intersecting",
    "C38_trace_attribute_time",
    "C38_attribute_in_timeframe",
    "C38_total",
    "C38_partition",
    "C38_partition_nonempty",
    "C38_partition_four_eyes",
    "C38_numeric_modes_refuted",
    "C38_eventually_follows_time_refuted"
   ],
   "note": "Proved for every filter listed, both modes. Findings (proved as _refuted theorems, outside the scope of the statement): eventually_follows with timestamp bounds compares the timestamps of the first events of the trace (trace[i], trace[i+1]) instead of the matched ones (ltl_checker.py:110-111); the two modes of apply_numeric overlap."
  },
  {
   "property": "C39",
   "status": "proved",
   "theorems": [
    "C39_profile_average",
    "C39_profile_pairs",
    "C39_profile_exact",
    "C39_deviations_exact",
    "C39_constant_delays",
    "C39_self_conformance",
    "C39_self_conformance_default"
   ],
   "note": "Proved over the stdlib reals (axioms listed in DESIGN.md); floating-point rounding is not modelled."
  },
  {
   "property": "C40",
   "status": "proved",
   "theorems": [
    "C40_minimum_self_distance",
    "C40_witnesses",
    "C40_compressed_refuted"
   ],
   "note": "C40_compressed_refuted: the msd of util/compression/util.py (not used by the API) is negative."
  },
  {
   "property": "C41",
   "status": "proved",
   "theorems": [
    "C41_argmin_closest",
    "C41_argmax_farthest",
    "C41_argmax_none_refuted"
   ],
   "note": "Finding: argmax returns None for a non-empty list all of whose elements equal the argument (C41_argmax_none_refuted)."
  },
  {
   "property": "C42",
   "status": "proved",
   "theorems": [
    "C42_sound",
    "C42_no_dead",
    "C42_single_child_or_refuted"
   ],
   "note": "Finding outside the statement: an OR with one child yields dead transitions (C42_single_child_or_refuted)."
  },
  {
   "property": "C43",
   "status": "proved",
   "theorems": [
    "C43_remove_edge",
    "C43_start_end_nodes"
   ],
   "note": ""
  },
  {
   "property": "C44",
   "status": "proved",
   "theorems": [
    "C44_vertex_frequencies_refuted",
    "C44_vertex_frequencies_actual",
    "C44_vertex_frequencies_scope"
   ],
   "note": "Finding: the documented meaning (number of occurrences) is refuted in general (C44_vertex_frequencies_refuted); what is computed is proved."
  },
  {
   "property": "C45",
   "status": "proved",
   "theorems": [
    "C45_dfg_of_variants",
    "C45_dfg_of_compressed"
   ],
   "note": ""
  },
  {
   "property": "C46",
   "status": "proved",
   "theorems": [
    "C46_termination",
    "C46_deterministic",
    "C46_labels",
    "C46_zero_threshold"
   ],
   "note": "IMf with a positive threshold gives up fitness by design (ex_imf_filters)."
  },
  {
   "property": "C47",
   "status": "proved",
   "theorems": [
    "C47_variants_filter",
    "C47_top_k",
    "C47_by_min_coverage",
    "C47_by_max_coverage",
    "C47_percentage",
    "C47_total",
    "C47_partition"
   ],
   "note": "Model_Filter.v models the log (not pandas) variants of the filters; percentages are exact rationals instead of floats."
  },
  {
   "property": "C48",
   "status": "proved",
   "theorems": [
    "C48_prefixes",
    "C48_suffixes",
    "C48_prefix_suffix",
    "C48_between",
    "C48_between_total"
   ],
   "note": "The between model lists the stretches; the new case identifiers built from the case id and the stretch number are not modelled."
  },
  {
   "property": "C49",
   "status": "proved",
   "theorems": [
    "C49_conversion",
    "C49_start_activities",
    "C49_end_activities",
    "C49_attribute_values",
    "C49_numeric",
    "C49_eventually_follows",
    "C49_A_next_B_next_C",
    "C49_four_eyes",
    "C49_different_persons",
    "C49_paths",
    "C49_rework",
    "C49_repetitions",
    "C49_case_size",
    "C49_case_performance",
    "C49_traces_contained",
    "C49_traces_intersecting",
    "C49_attribute_in_timeframe",
    "C49_variants",
    "C49_prefixes",
    "C49_suffixes",
    "C49_between",
    "C49_A_next_B_next_C_refuted",
    "C49_four_eyes_refuted",
    "C49_path_performance_refuted",
    "C49_traces_intersecting_refuted",
    "C49_repetitions_refuted",
    "C49_numeric_refuted",
    "C49_between_refuted"
   ],
   "note": "Each scope restriction is needed: refutation theorems (C49_*_refuted) give concrete dataframes on which the two implementations differ: A_next_B_next_C compares row positions across a merge so repeated activities are lost; four-eyes on dataframes compares only one pair of resources; path performance pairs events across cases; the dataframe intersecting filter uses open bounds; repetitions with minimum 0 drops cases without the value; negative numeric mode filters events rather than cases; between with equal activities does not share the boundary event. Other findings, read but not modelled: filter_df_keeping_spno_activities returns its input (attributes_filter.py:308); path strings joined by commas may collide; the activity-split and consecutive-grouping identifiers may collide; eventually_follows with timestamps and three or more values raises KeyError; infix_to_regex does not escape."
  },
  {
   "property": "C50",
   "status": "proved",
   "theorems": [
    "C50_choice",
    "C50_choice_found",
    "C50_sequence",
    "C50_sequence_found",
    "C50_strict_sequence",
    "C50_concurrency",
    "C50_concurrency_found",
    "C50_loop",
    "C50_loop_found",
    "C50_find_cut",
    "C50_no_cut",
    "C50_concurrency_refuted"
   ],
   "note": "C50_concurrency_refuted shows that the indivisibility condition for concurrency is needed: a valid concurrency cut {1,2},{3,4} is missed because groups without start or end activity are merged with an arbitrary neighbour."
  },
  {
   "property": "C51",
   "status": "proved",
   "theorems": [
    "C51_counts",
    "C51_balance",
    "C51_places",
    "C51_log_places",
    "C51_fitness",
    "C51_balance_refuted",
    "C51_places_refuted",
    "C51_fitness_refuted"
   ],
   "note": "Findings outside the scope: with arc weights > 1 the balance p+m=c+r fails (C51_balance_refuted: add_missing_tokens adds the whole weight but counts weight minus marking); per-place missing tokens are counted once per variant instead of once per case (C51_places_refuted, token_replay.py:522); with stop_immediately_unfit the fitness can be negative (C51_fitness_refuted)."
  },
  {
   "property": "C52",
   "status": "proved",
   "theorems": [
    "C52_perfect",
    "C52_fit",
    "C52_fit_sink",
    "C52_complete",
    "C52_fit_refuted",
    "C52_complete_refuted"
   ],
   "note": "Findings: trace_is_fit ignores missing tokens of the final marking, so a 'fit' trace can have fitness < 1 (C52_fit_refuted); with duplicate labels accepted traces can be judged unfit (C52_complete_refuted)."
  },
  {
   "property": "C53",
   "status": "proved",
   "theorems": [
    "C53_cases",
    "C53_order",
    "C53_refuted"
   ],
   "note": "Finding: with CONSIDER_ACTIVITIES_NOT_IN_MODEL_IN_FITNESS an unknown activity of one case makes all the cases replayed after it unfit (C53_refuted)."
  },
  {
   "property": "C54",
   "status": "proved",
   "theorems": [
    "C54_ranges",
    "C54_perfect",
    "C54_perfect_refuted"
   ],
   "note": "Finding: with empty markings the evaluation is 0 although every trace has fitness 1 (C54_perfect_refuted)."
  },
  {
   "property": "C55",
   "status": "proved",
   "theorems": [
    "C55_paths",
    "C55_found"
   ],
   "note": ""
  },
  {
   "property": "C56",
   "status": "proved",
   "theorems": [
    "C56_defines_place",
    "C56_defines_place_all",
    "C56_inferred",
    "C56_no_duplicates",
    "C56_one_token",
    "C56_one_token_no_duplicates",
    "C56_log_accepted",
    "C56_single_refuted"
   ],
   "note": "Finding: one-event cases of an activity that occurs in no edge are lost by pm4py.convert_to_petri_net (C56_single_refuted)."
  },
  {
   "property": "C57",
   "status": "proved",
   "theorems": [
    "C57_cost_optimal",
    "C57_none_only_without_traces",
    "C57_terminates",
    "C57_alignment_found",
    "C57_cost_zero",
    "C57_moves",
    "C57_moves_before_first_event_lost_refuted",
    "C57_moves_after_end_lost_refuted"
   ],
   "note": "The search is modelled with an arbitrary heap order on equal costs; the proof is a crossing argument for the closed set that ignores costs. The _refuted theorems are findings about the returned list of moves only: moves on the model before the first event are dropped, and a log move after the end of the model shows the random end node name (cost and fitness are right)."
  },
  {
   "property": "C58",
   "status": "proved",
   "theorems": [
    "C58_log_results",
    "C58_log_total"
   ],
   "note": "Costs and fitness of apply_log, including the dictionary of already aligned traces."
  },
  {
   "property": "C59",
   "status": "proved",
   "theorems": [
    "C59_exact_language",
    "C59_no_final_marking",
    "C59_bounded_occurrences",
    "C59_marking_occurrences",
    "C59_large_bound",
    "C59_bounded_nets_terminate",
    "C59_unbounded_net_refuted"
   ],
   "note": "_refuted: on an unbounded net the playout may run for ever although the length of traces is bounded (silent transitions), hence the conditional statement plus termination for nets with finitely many reachable markings."
  },
  {
   "property": "C60",
   "status": "proved",
   "theorems": [
    "C60_runs",
    "C60_accepted",
    "C60_number",
    "C60_all_traces_possible"
   ],
   "note": "fm_leq_accepted is proved for the number of traces only (the other theorems take the default false)."
  },
  {
   "property": "C61",
   "status": "proved",
   "theorems": [
    "C61_round_trip",
    "C61_export_succeeds",
    "C61_injective",
    "C61_spaces_refuted",
    "C61_isolated_activity_refuted"
   ],
   "note": "Round trip as equality of the three dictionaries (including their order), for strings and files (universal newlines), for every set order. Findings, proved as _refuted theorems: names with white space at the ends come back changed, and a graph with an isolated start or end activity (a log with a trace of one event whose activity occurs nowhere else) cannot be exported (ValueError)."
  },
  {
   "property": "C62",
   "status": "proved",
   "theorems": [
    "C62_log_footprints",
    "C62_trace_footprints",
    "C62_partition"
   ],
   "note": "entire_event_log, trace_by_trace (keep_unique=False) and the causal alpha relation; log given as its traces of activities."
  },
  {
   "property": "C63",
   "status": "proved",
   "theorems": [
    "C63_log_conformance",
    "C63_trace_conformance",
    "C63_language_fits",
    "C63_fitness_range",
    "C63_fitness_traces_range",
    "C63_precision_range",
    "C63_no_pairs_refuted",
    "C63_empty_log_refuted"
   ],
   "note": "Findings: fitness is 1 when the log has no directly-follows pair although first activities deviate (C63_no_pairs_refuted); an empty log is reported as not fitting (C63_empty_log_refuted). Floats are rationals."
  },
  {
   "property": "C64",
   "status": "proved",
   "theorems": [
    "C64_alpha_dfg",
    "C64_alpha_log",
    "C64_self_loops"
   ],
   "note": "The outer loop only ranges over the original singleton pairs and the inner one over a snapshot; completeness of the merge is proved nevertheless. Activities following themselves stay unconnected (C64_self_loops)."
  },
  {
   "property": "C65",
   "status": "proved",
   "theorems": [
    "C65_sound",
    "C65_complete",
    "C65_parallel",
    "C65_or_refuted",
    "C65_loop3_refuted"
   ],
   "note": "C65_sound (any tree, any draws) and C65_complete (trees without inclusive choice, binary loops) together characterise the generated logs; C65_parallel: the shuffled pops never fail. Findings outside the scope: an inclusive choice makes every playout fail (C65_or_refuted) and the third child of a loop is never executed (C65_loop3_refuted). Not modelled: timestamps, the in-place shuffle of the user's tree for interleavings."
  },
  {
   "property": "C66",
   "status": "proved",
   "theorems": [
    "C66_language",
    "C66_soundness",
    "C66_terminates",
    "C66_visible",
    "C66_marked_refuted",
    "C66_weights_refuted",
    "C66_parallel_refuted"
   ],
   "note": "C66_language, C66_soundness, C66_visible, C66_terminates. Findings outside the conditions: a marked place with one arc in and one out is removed together with its token and the language becomes empty (C66_marked_refuted); arc weights are ignored (C66_weights_refuted); the exit rule can create parallel arcs, for which the code's own enabling check (C02) accepts a trace the original net does not have (C66_parallel_refuted)."
  },
  {
   "property": "C67",
   "status": "proved",
   "theorems": [
    "C67_valid",
    "C67_valid_default",
    "C67_fit_sound",
    "C67_cost_bound",
    "C67_none_means_none",
    "C67_terminates",
    "C67_best_worst_exact",
    "C67_fitness_range",
    "C67_deterministic_fit",
    "C67_fitting_trace_refuted",
    "C67_optimal_refuted"
   ],
   "note": "Findings (refutations): C67_fitting_trace_refuted - a fitting trace is reported with a visible deviation (cost 10000 instead of 1); C67_optimal_refuted - non-optimal on a deterministic net without silent transitions (20000 instead of 10000). Positive side proved for all nets: validity, soundness of cost < 10000, completeness, termination, upper bound, exact best worst cost, fitness in [0,1]; cost 0 for fitting traces of deterministic silent-free nets."
  },
  {
   "property": "C68",
   "status": "proved",
   "theorems": [
    "C68_eventually_enabled_sound",
    "C68_eventually_enabled_exact",
    "C68_eventually_enabled_terminates",
    "C68_state_machine",
    "C68_prefix_markings",
    "C68_prefix_markings_terminates",
    "C68_formula",
    "C68_range",
    "C68_one_iff",
    "C68_case_order",
    "C68_prefix_key",
    "C68_align_precision",
    "C68_align_below_one",
    "C68_align_terminates",
    "C68_eventually_enabled_refuted",
    "C68_all_continuations_refuted",
    "C68_dataframe_refuted",
    "C68_prefix_key_refuted"
   ],
   "note": "Proved in the stated scope. Refuted outside it (findings): with two concurrent silent transitions the eventually-enabled helper overwrites its dictionary entry and misses transitions (C68_eventually_enabled_refuted); only the markings of shortest silent runs are counted, so continuations reachable by longer silent runs are not activated (C68_all_continuations_refuted); on a DataFrame len(log) is the number of events, so the empty prefix is weighted by events instead of cases (C68_dataframe_refuted); a comma inside an activity name merges distinct prefixes (C68_prefix_key_refuted). Not modelled: the multiprocessing branch (which drops the parameters), the easy-soundness pre-check, the internals of token replay in the token variant (abstracted as an arbitrary activation function)."
  },
  {
   "property": "C69",
   "status": "proved",
   "theorems": [
    "C69_formula",
    "C69_case_order",
    "C69_ranges",
    "C69_log_fitness",
    "C69_fitting_log_refuted",
    "C69_empty_traces_refuted"
   ],
   "note": "Findings outside the statement: a log all of whose traces fit has log_fitness < 1 as soon as a silent transition is needed, because unrounded costs are summed while trace fitness rounds (C69_fitting_log_refuted); empty traces of a model accepting the empty trace give 0 percent although log fitness is 1 (C69_empty_traces_refuted)."
  },
  {
   "property": "C70",
   "status": "proved",
   "theorems": [
    "C70_generalization_formula",
    "C70_generalization_range",
    "C70_generalization_monotone",
    "C70_generalization_order",
    "C70_simplicity",
    "C70_simplicity_arcs"
   ],
   "note": "Generalization over the stdlib reals (axioms in DESIGN.md); simplicity over rationals. Floating-point rounding not modelled."
  },
  {
   "property": "C71",
   "status": "proved",
   "theorems": [
    "C71_language",
    "C71_exists",
    "C71_sound",
    "C71_reduction_keeps_order",
    "C71_empty_order_refuted"
   ],
   "note": "Language, soundness, existence of the result. Finding (C71_empty_order_refuted): a partial order without children is accepted by the constructor but its net has a join without inputs, so completion is not proper."
  },
  {
   "property": "C72",
   "status": "proved",
   "theorems": [
    "C72_language",
    "C72_nets_agree",
    "C72_raises",
    "C72_interleaving_refuted",
    "C72_transitive_refuted"
   ],
   "note": "Findings: interleaving is turned into concurrency (C72_interleaving_refuted); sequences of three or more yield a non-transitive order that validate_partial_orders rejects (C72_transitive_refuted)."
  },
  {
   "property": "C73",
   "status": "proved",
   "theorems": [
    "C73_language",
    "C73_well_formed",
    "C73_terminates",
    "C73_choices",
    "C73_no_nested_choice",
    "C73_transitive_refuted",
    "C73_idempotent_refuted"
   ],
   "note": "Language, well-formedness, termination, size of choices and absence of nested choices proved for all models. Findings kept as _refuted theorems: the order of the simplified model need not be transitive although all orders of the input are (a before PO{b before c} becomes a->b->c without a->c, which validate_partial_orders rejects); simplify is not idempotent (XOR(tau, XOR(tau, LOOP(tau, a)))). Not modelled: simplify_using_frequent_transitions (which turns XOR(tau, tau) into a visible transition labelled None)."
  },
  {
   "property": "C74",
   "status": "proved",
   "theorems": [
    "C74_count",
    "C74_entries",
    "C74_backward_refuted"
   ],
   "note": "Model_Interval.concurrent_activities. C74_backward_refuted: with an event completing before it starts, overlapping pairs behind it are lost (outside the scope of the claim)."
  },
  {
   "property": "C75",
   "status": "proved",
   "theorems": [
    "C75_count",
    "C75_first",
    "C75_variants"
   ],
   "note": "Both implementations modelled; C75_variants proves they agree on instantaneous time-ordered logs."
  },
  {
   "property": "C76",
   "status": "proved",
   "theorems": [
    "C76_cycle_time",
    "C76_order",
    "C76_total_refuted"
   ],
   "note": "Finding (C76_total_refuted): the last busy period is never added to the production time, so a single event of ten units has cycle time 0. Timestamps are integers, not floats."
  },
  {
   "property": "C77",
   "status": "proved",
   "theorems": [
    "C77_count",
    "C77_same_span_refuted"
   ],
   "note": "intervaltree's semantics (a set of intervals; tree[a:b] = intervals with begin < b and end > a; null intervals raise) is trusted. Finding (C77_same_span_refuted): cases with identical span are counted once."
  },
  {
   "property": "C78",
   "status": "proved",
   "theorems": [
    "C78_attribute",
    "C78_identifiers",
    "C78_timestamp",
    "C78_per_type_count",
    "C78_zero_refuted",
    "C78_start",
    "C78_end",
    "C78_sample"
   ],
   "note": "Finding (C78_zero_refuted): a required number of 0 in filter_ocel_object_per_type_count still drops the events without an object of the type. Relations are counted, not distinct objects."
  },
  {
   "property": "C79",
   "status": "proved",
   "theorems": [
    "C79_attribute",
    "C79_objects",
    "C79_types",
    "C79_sample"
   ],
   "note": "An unknown identifier with level > 1 raises a KeyError (None in the model, see ex_objects)."
  },
  {
   "property": "C80",
   "status": "proved",
   "theorems": [
    "C80_object",
    "C80_length",
    "C80_otype",
    "C80_activity",
    "C80_whole_events",
    "C80_isolated_refuted"
   ],
   "note": "networkx's connected components are modelled as in C23. Finding (C80_isolated_refuted): an object meeting no other object is a component of size 1 for filter_ocel_cc_object, but cc_length, cc_otype and cc_activity always drop it."
  },
  {
   "property": "C81",
   "status": "proved",
   "theorems": [
    "C81_matching",
    "C81_separator_refuted"
   ],
   "note": "Finding (C81_separator_refuted): the concatenation act + '@#@#' + type confuses combinations even if no name contains the separator."
  },
  {
   "property": "C82",
   "status": "proved",
   "theorems": [
    "C82_rows",
    "C82_case",
    "C82_multiplicity",
    "C82_twice_refuted"
   ],
   "note": "pandas' inner merge is trusted to keep the order of the left table. Finding (C82_twice_refuted): two relations with different qualifiers duplicate the event in the flattened case."
  },
  {
   "property": "C83",
   "status": "proved",
   "theorems": [
    "C83_interaction",
    "C83_cobirth",
    "C83_codeath",
    "C83_descendants",
    "C83_inheritance",
    "C83_no_objects"
   ],
   "note": "Sets of pairs are modelled by membership."
  },
  {
   "property": "C84",
   "status": "proved",
   "theorems": [
    "C84_paths",
    "C84_nodes",
    "C84_final",
    "C84_leaves",
    "C84_prefix_variant_refuted",
    "C84_log"
   ],
   "note": "C84_prefix_variant_refuted is a FINDING: a variant that is a proper prefix of a variant inserted before ends in a node that is not marked final, and the marks depend on the order of the variants (a set for dataframes)."
  },
  {
   "property": "C85",
   "status": "proved",
   "theorems": [
    "C85_complete",
    "C85_justified",
    "C85_paths",
    "C85_full_window",
    "C85_stutter_refuted"
   ],
   "note": "C85_stutter_refuted is a FINDING: if an event leaves a view unchanged that has no state yet, two states with the same name are created; later lookups by name pick either, depending on the iteration order of a set of objects, and a trace of the log need not be a path of the system. The path theorem is therefore stated for logs without such events."
  },
  {
   "property": "C86",
   "status": "proved",
   "theorems": [
    "C86_rework",
    "C86_dataframe"
   ],
   "note": ""
  },
  {
   "property": "C87",
   "status": "proved",
   "theorems": [
    "C87_short_circuit",
    "C87_complete",
    "C87_check_wfnet",
    "C87_undirected_refuted",
    "C87_same_name_refuted"
   ],
   "note": "C87_short_circuit: exact for distinct names; C87_complete: never rejects a workflow net whatever the names; C87_check_wfnet: exact characterisation of check_wfnet. Findings: check_wfnet uses an undirected graph, so it accepts nets that are not workflow nets (C87_undirected_refuted); the short-circuit check identifies nodes by name, so a place and a transition of equal name are merged and a non-workflow net can be accepted (C87_same_name_refuted)."
  },
  {
   "property": "C88",
   "status": "proved",
   "theorems": [
    "C88_runs",
    "C88_language",
    "C88_final_refuted",
    "C88_first_marked_refuted"
   ],
   "note": "The MILP solver is modelled as an oracle for feasibility over the non-negative integers. C88_runs and C88_language hold under the stated precondition. Findings: a redundant place that keeps tokens at the end is removed although the original net then never reaches the final marking (C88_final_refuted); rows accumulate across places, so if the alphabetically first place is initially marked the integer program allows a non-zero offset and the (source) place itself is removed: its transition can then fire any number of times (C88_first_marked_refuted)."
  },
  {
   "property": "C89",
   "status": "proved",
   "theorems": [
    "C89_partition",
    "C89_runs",
    "C89_traces",
    "C89_weights_refuted",
    "C89_duplicates_refuted"
   ],
   "note": "C89_partition, C89_runs, C89_traces. Findings: arc weights are dropped (add_arc_from_to is called without weight), so with weights the components accept runs the net does not (C89_weights_refuted); duplicate-labelled transitions are added to the graph under their label while arcs use names, so they are not kept together and can be shared by two components, which makes the decomposition invalid for duplicate labels (C89_duplicates_refuted)."
  },
  {
   "property": "C90",
   "status": "proved",
   "theorems": [
    "C90_pnml_roundtrip",
    "C90_empty_final_guessed",
    "C90_prom5_unreadable",
    "C90_empty_label_refuted"
   ],
   "note": "C90_pnml_roundtrip (non-empty final marking) and C90_empty_final_guessed. Findings: C90_prom5_unreadable (a file written with export_prom5=True cannot be read back as soon as the net has a visible transition: the importer looks up the activity attribute that the exporter does not write), C90_empty_label_refuted (an empty label comes back as the transition's name). The XML library, layout, properties, stochastic information are not modelled."
  },
  {
   "property": "C91",
   "status": "proved",
   "theorems": [
    "C91_ptml_roundtrip",
    "C91_ptml_language",
    "C91_interleaving_unwritable",
    "C91_loop_exit_lost_refuted",
    "C91_loop_exit_moved_refuted"
   ],
   "note": "C91_ptml_roundtrip, C91_ptml_language, C91_interleaving_unwritable. Findings outside the scope: C91_loop_exit_lost_refuted (a loop with three children at the root loses its exit child) and C91_loop_exit_moved_refuted (inside a sequence the loop and its exit child are moved to the end of the sequence). The XML library is trusted; the random identifiers are any injective function of nodes."
  },
  {
   "property": "C92",
   "status": "proved",
   "theorems": [
    "C92_business_time",
    "C92_business_time_exact",
    "C92_one_second_pause_refuted",
    "C92_wrapping_slot_refuted"
   ],
   "note": "C92_business_time (exact characterization, with termination) and C92_business_time_exact. Findings: C92_one_second_pause_refuted (a one-second pause between slots is counted as business time), C92_wrapping_slot_refuted (a slot that reaches past the end of the week is not seen on the next Monday). Times are integers (ticks); float rounding is not modelled; time zones are dropped as in the code."
  },
  {
   "property": "C93",
   "status": "proved",
   "theorems": [
    "C93_handover",
    "C93_working_together",
    "C93_working_together_pandas",
    "C93_versions_agree_refuted",
    "C93_subcontracting_sound",
    "C93_subcontracting_exact_refuted"
   ],
   "note": "Exact for handover of work and working together; sound but, as the property says, not exact for subcontracting. Findings: (1) C93_versions_agree_refuted: working_together on a dataframe divides by the number of events, on an event log by the number of cases, so the two versions disagree. (2) C93_subcontracting_exact_refuted: in subcontracting the counting loop is inside `if res_i not in sum_i_to_j`, so only the first pattern of every resource in the whole log is counted: with the cases a-b-a and a-c-a there is no connection (a, c)."
  },
  {
   "property": "C94",
   "status": "proved",
   "theorems": [
    "C94_edges",
    "C94_repeated_refuted",
    "C94_performance",
    "C94_performance_nonnegative",
    "C94_activities",
    "C94_activities_of_type",
    "C94_start_activities",
    "C94_end_activities"
   ],
   "note": "Finding, C94_repeated_refuted: without 'no event related twice to the same object' the edges are wrong: in an OCEL 2.0 log where an event is related to an object with two qualifiers, the event is recorded as directly following itself. Not modelled: business hours in the performance."
  },
  {
   "property": "C95",
   "status": "proved",
   "theorems": [
    "C95_roles",
    "C95_similarity"
   ],
   "note": "Rational instead of float arithmetic; the name-based sorting of roles and the tie-breaking among candidates are arbitrary (the theorem holds for each)."
  },
  {
   "property": "C96",
   "status": "proved",
   "theorems": [
    "C96_rules",
    "C96_defined",
    "C96_auto",
    "C96_full_confidence",
    "C96_precedence_refuted",
    "C96_alternate_refuted",
    "C96_nonsuccession_refuted",
    "C96_empty_refuted"
   ],
   "note": "Full for the quantity each template measures. Findings: C96_precedence_refuted (b without a is not counted against precedence, so a constraint of full confidence can be violated by a case of the log), C96_alternate_refuted (alternate/chain response and precedence are tested as successions), C96_nonsuccession_refuted (non-succession is the negation of succession), C96_empty_refuted (IndexError of init on a case without considered activity). Ratios are rational numbers; only one threshold given is modelled as failing."
  },
  {
   "property": "C97",
   "status": "proved",
   "theorems": [
    "C97_chunks",
    "C97_written",
    "C97_untidy_refuted"
   ],
   "note": "Scope: texts without white space at the start of a tag or of a text between tags (every exported file). Finding C97_untidy_refuted: for a tag such as '< event>' the log depends on the alignment of the 4096-byte chunks."
  },
  {
   "property": "C98",
   "status": "proved",
   "theorems": [
    "C98_roundtrip",
    "C98_lossy",
    "C98_entities_refuted",
    "C98_quotes_refuted",
    "C98_nested_refuted",
    "C98_lists_refuted",
    "C98_classifier_refuted",
    "C98_numpy_refuted"
   ],
   "note": "Findings (refuted outside the scope): entities are never decoded by the default importer (a & b comes back as a &amp; b), a value with a double quote is read wrongly, nested attributes lose their children, lists come back as dictionaries whose keys are cut to two characters when written again, classifier keys with spaces are split, numpy values become strings. 8-bit characters; encoding, compression and the date and float formats are parameters."
  },
  {
   "property": "C99",
   "status": "proved",
   "theorems": [
    "C99_edges",
    "C99_nodes",
    "C99_and_measures",
    "C99_asymmetric",
    "C99_threshold_monotone",
    "C99_min_dfg_refuted",
    "C99_loop_count_refuted"
   ],
   "note": "C99_edges, C99_nodes, C99_and_measures, C99_asymmetric, C99_threshold_monotone hold for every log and all rational thresholds (floating point rounding left out). Findings kept as refutations: C99_min_dfg_refuted (the edges of a short loop are added in both directions although only one was tested against min_dfg_occurrences), C99_loop_count_refuted (the input connection of a loop edge carries the count of the opposite relation). C99_isolated: a log that only alternates between two activities yields isolated nodes."
  },
  {
   "property": "C100",
   "status": "proved",
   "theorems": [
    "C100_language",
    "C100_sound_language",
    "C100_order_independent",
    "C100_safe",
    "C100_terminates",
    "C100_dead_refuted",
    "C100_weights_refuted",
    "C100_single_refuted"
   ],
   "note": "Model_ToTree models the four grouping rules, the insertion of invisible transitions, the main loop, folding and sorting. Labels are trees instead of their printed text (round trip: C20). Interval semantics (transitions labelled with languages start, emit, finish) relates every intermediate net to the input. FINDINGS kept as theorems: C100_dead_refuted (net with dead transitions gets a tree with extra traces), C100_weights_refuted (arc weights ignored), C100_single_refuted (single-transition net is always rejected). Completeness (every block-structured net is converted) is not claimed."
  },
  {
   "property": "C101",
   "status": "proved",
   "theorems": [
    "C101_exact",
    "C101_equivalence",
    "C101_language",
    "C101_interleaving_refuted"
   ],
   "note": "C101_exact characterises the answer by an inductive relation (Spec_TreeUtil); equivalence and language preservation follow. Finding C101_interleaving_refuted: None for INTERLEAVING."
  },
  {
   "property": "C102",
   "status": "proved",
   "theorems": [
    "C102_reduction",
    "C102_trace",
    "C102_general",
    "C102_duplicates_refuted"
   ],
   "note": "C102_reduction: totality, inclusion and equality over the trace's activities; C102_trace; C102_general also for inclusive choices. Finding C102_duplicates_refuted: bottomup_nodes[-1] is not the root for X(->(a,b),->(b,a)); the reduced tree rejects the fitting trace."
  },
  {
   "property": "C103",
   "status": "proved",
   "theorems": [
    "C103_language",
    "C103_total",
    "C103_reduction_soundness"
   ],
   "note": "C103_language for both settings of enable_reduction; C103_total; C103_reduction_soundness. Scope: no inclusive gateways (their extra transitions are not modelled), no nodes the conversion leaves out (subprocesses, intermediate events); default use_id=False."
  },
  {
   "property": "C104",
   "status": "proved",
   "theorems": [
    "C104_language",
    "C104_total",
    "C104_reduction",
    "C104_reduction_ends",
    "C104_reduction_ends_refuted",
    "C104_round_trip"
   ],
   "note": "Nodes of the diagram carry names saying what they were made for (uuids in the code). Findings: C104_reduction_ends_refuted: reduce_xor_gateways loops forever on a gateway whose only flow leads to itself (removing the gateway and adding the flow g->g adds the gateway again), which convert_to_bpmn reaches for nets with an unconnected silent cycle; nets with several start places or tokens get an exclusive choice among them, so they are out of scope, as are arc weights (ignored by the conversion) and transitions without input or output places."
  },
  {
   "property": "C105",
   "status": "proved",
   "theorems": [
    "C105_traces",
    "C105_ends",
    "C105_trace_probability",
    "C105_total_probability",
    "C105_playout",
    "C105_variant_counts",
    "C105_playout_complete",
    "C105_playout_covers",
    "C105_dead_end_refuted"
   ],
   "note": "Model_DfgPlay models the functions of the variant; probabilities are exact rationals (the code adds logarithms of floats), ties in the heap are broken arbitrarily, and the time limit is left out. The hypothesis without dead ends is needed: C105_dead_end_refuted shows that a start activity without outgoing edge that is no end activity makes the enumeration raise a KeyError. C105_example_enumeration is a concrete run."
  },
  {
   "property": "C106",
   "status": "proved",
   "theorems": [
    "C106_to_event_log",
    "C106_to_event_stream",
    "C106_without_case_attributes",
    "C106_round_trip",
    "C106_dataframe_stream",
    "C106_dataframe_missing",
    "C106_log_dataframe_log",
    "C106_again",
    "C106_changed_refuted",
    "C106_missing_refuted",
    "C106_names_refuted",
    "C106_empty_refuted"
   ],
   "note": "Model_LogConv; values have decidable equality and pandas is modelled as keeping values (columns in order of appearance, missing cells). C106_example is a proper log. Findings, each a theorem: C106_changed_refuted (convert_to_dataframe turns off the deep copy and adds the case attributes to the events of the log that is given; C106_again: harmless for a second conversion), C106_missing_refuted (by default attributes missing in an event come back as NaN attributes), C106_names_refuted (str.replace removes every occurrence of the prefix in a name: showcase:id becomes showid), C106_empty_refuted (traces without events are lost)."
  },
  {
   "property": "C107",
   "status": "proved",
   "theorems": [
    "C107_intervals",
    "C107_together",
    "C107_reported",
    "C107_types",
    "C107_far_refuted"
   ],
   "note": "Model_Batches, with heapq as in the standard library; integer timestamps. Left out: grouping by activity and resource, sorting of the result; intervals with equal times are not compared further. C107_example: two batches far apart. Finding C107_far_refuted: because __merge_near_intervals scans a heap (with items deleted in the middle) as if it were a sorted list, events that are arbitrarily far from all others are put into a batch with them, even for events in the order of time."
  },
  {
   "property": "C108",
   "status": "proved",
   "theorems": [
    "C108_to_interval",
    "C108_one_matching",
    "C108_to_lifecycle",
    "C108_length",
    "C108_round_trip",
    "C108_lead_cycle",
    "C108_wasted",
    "C108_sum",
    "C108_overtaking_refuted",
    "C108_touching_refuted"
   ],
   "note": "Model_Lifecycle, a trace at a time; left out: the guards for logs that already have the format, attributes of log and trace, the marks of to_lifecycle, durations and ratios; BusinessHours is a function that counts working seconds (C92). C108_example and C108_example_fifo: concrete traces. Findings: C108_overtaking_refuted (an event that runs inside another of the same activity takes its start, durations change in the round trip), C108_touching_refuted (an event that starts exactly when all before it have ended adds nothing to lead and cycle time: neither st > max_et nor st < max_et)."
  },
  {
   "property": "C109",
   "status": "proved",
   "theorems": [
    "C109_codes",
    "C109_mapping",
    "C109_shorter",
    "C109_back",
    "C109_characters",
    "C109_characters_of_one_log",
    "C109_reserved"
   ],
   "note": "Model_Encode; activities are numbers, characters are code points without the upper limit of Python (more than a million activities), ties of value_counts in the order of appearance. C109_example: the carries at 26, 702; C109_example_characters: the skipped characters after 8."
  },
  {
   "property": "C110",
   "status": "proved",
   "theorems": [
    "C110_points",
    "C110_spread",
    "C110_sample",
    "C110_split",
    "C110_split_dataframe",
    "C110_prefixes",
    "C110_prefixes_dataframe",
    "C110_artificial_dataframe",
    "C110_artificial_grouped",
    "C110_artificial_trace",
    "C110_split_refuted"
   ],
   "note": "Model_Sample; rows have case, timestamp and the rest; random.shuffle is any permutation, draws are any decisions, a share is a fraction (the code: floats); missing timestamps and extreme timestamps are left out. C110_example: two interleaved cases with equal timestamps. Finding C110_split_refuted: the + 1 in split makes the training log one trace too large (80 per cent of five traces leave no test trace; share 0 still trains)."
  },
  {
   "property": "C111",
   "status": "proved",
   "theorems": [
    "C111_language",
    "C111_emd",
    "C111_histograms",
    "C111_empty_refuted"
   ],
   "note": "The external library pyemd is not modelled: the theorem is about every value that satisfies the specification of the distance (a least-cost plan attains it). Probabilities are rationals (the code: floats). FINDING C111_empty_refuted: when one of the languages has an empty trace there is no distance at all: the normalized edit distance of the empty trace with itself divides by zero."
  },
  {
   "property": "C112",
   "status": "proved",
   "theorems": [
    "C112_performance",
    "C112_frequency",
    "C112_post",
    "C112_pre",
    "C112_bounds",
    "C112_service"
   ],
   "note": "Without business hours (C92 is about these). The measures median, stdev, raw_values and all are not modelled. Rationals instead of floats."
  }
 ]
}