# Formal model of pm4py-core in Rocq (Coq 8.16.1)

## Method
* Executable Gallina models (`Model_*.v`) mirror the Python functions branch by branch; every
  definition cites file and lines in `/repo` and states its simplifications. Python objects compared by
  identity (places, transitions) and strings that are only compared (activity labels, case ids,
  attribute values) are natural numbers (integers in the filter models). Where characters matter
  (parsing and printing trees, DFG files, prefix keys) strings are lists of characters.
* Specifications (`Spec_*.v`) are written without the model's helpers: token game (`Spec_Petri`), language
  of a process tree (`Spec_Tree`), moves/alignments (`Spec_Align`, `Spec_LessMem`), counting
  (`Spec_Dfg`), and so on.
* Proofs live in `Proofs_*.v`; `Props_*.v` contain the property theorems `Cnn_*`, each followed by
  `Print Assumptions`, and `Example`s / `ex_*` showing non-trivial instances of the hypotheses.
* A property that is false of the code outside a scope is stated in `properties.jsonl` with its scope;
  what happens outside is recorded as a `..._refuted` theorem with a concrete witness and described in
  `MANIFEST.json` (these are findings about pm4py). C02 and C09 are false as stated; they are kept as
  `partial`: refuted in general, and the true part proved.
* Python sets whose iteration order is not determined are lists or an arbitrary function `ord` with
  `forall l, Permutation (ord l) l`; theorems quantify over it. Random choices are an arbitrary
  stream of draws. While loops over worklists take fuel and return `None` when it runs out; a separate
  `_terminates` theorem shows that enough fuel exists under the stated conditions.
* Mutation testing: `seeded/mutations*.py` edits of the model (one realistic bug each), run by
  `tools/mutate.py` in a scratch copy; results in `seeded/LOG.jsonl`.

## Per property plan
| id | modelled (Model file; main functions) | how proved |
|---|---|---|
| C01-C05, C09 | Petri: `Marking` (finite map to Z with explicit keys), `is_enabled`, `execute`, `weak_execute`, incidence matrix, sub-marking test | pointwise characterisation of firing, induction over firing sequences; C02, C09 refuted in general |
| C06 | Petri: `marking_flow_petri` / reachability graph as worklist loop | invariant: visited = reached, closure when the worklist is empty |
| C07 | Petri: inhibitor/reset semantics | pointwise characterisation |
| C08, C10 | Align: trace net, synchronous product | simulation in both directions, induction over runs |
| C11-C13 | Align: decorated pre/post sets, Dijkstra loop, reconstruction | Dijkstra invariant on closed/open sets |
| C14 | AStar: A* loop with state-equation heuristic; LP solver = arbitrary function with a stated contract (premise of the theorem) | consistency of the LP value along arcs; invariant |
| C15, C16 | Align, AlignLog: fitness formula, variant grouping | arithmetic; index bookkeeping |
| C17, C41 | Lev: edit distance dynamic programme, argmin/argmax | equality with the inductive edit-script relation |
| C18, C21 | Tree, Fold: folding, binary trees | induction over trees, language equality |
| C19, C42, C66 | TreeNet, Reduce: tree to Petri net, reduction of invisible transitions, single entry/exit and other rules | compositional simulation by blocks; step-by-step language equality for every rule order |
| C20 | Parse: `repr`, `parse` of trees on characters | round trip by induction with a stack invariant |
| C22, C62, C63 | TreeFP, Bottomup, Footprints: footprints of trees (bottom-up dictionary computation), of logs, conformance | tree languages characterised by first/last/follows; set reasoning |
| C23-C25, C46, C50 | IM: cuts, projections, fall-throughs, IM/IMf recursion | each trace is a composition of its projections; measure; graph components |
| C26, C30, C31, C39 | Stream, Temporal: streaming state machines, temporal profile | invariant over the event list, compared with the batch function; C39 over the stdlib reals |
| C27, C40, C44, C45 | Dfg: directly-follows graph, start/end activities, msd, vertex frequencies, variants | counting induction |
| C28, C29 | Live: threads, locks, event stream | step relation; invariants over all interleavings; refutation traces |
| C32-C34 | Skel, Declare: log skeleton discovery and conformance, Declare conformance | direct induction; trace semantics of templates |
| C35, C36, C43 | Rel: boolean matrices, closure, reduction, editing | triple-loop fixpoint invariants |
| C37 | Graph, DfgFilter: filter on activities/paths percentage | reachability, loop invariants |
| C38, C47-C49 | Filter, FilterDf: log filters and their pandas variants | partition lemmas; agreement between both implementations |
| C51-C55 | Replay: token-based replay, silent shortest paths, diagnostics counters | counter invariants, walk induction |
| C56-C58 | DfgNet, DfgAlign: DFG to Petri net, alignments with a DFG | language of the graph; crossing argument for the closed set |
| C59, C60 | Playout: extensive and stochastic/basic playout of nets | breadth-first invariant; run construction for any draws |
| C61 | DfgFile: export/import of DFGs | character-level round trip |
| C64 | Alpha: alpha miner | set-maximality by induction over the merge loop |
| C65 | TreePlayout: topbottom playout of trees | soundness for any draws, completeness by constructing the draws |
| C67 | LessMem: `dijkstra_less_memory` | invariants of the search; potential argument for the cost bound |
| C69, C70 | Eval: alignment-based log fitness, generalization (reals), simplicity | fold lemmas; arithmetic |
| C71 | POWL → Petri net: `recursively_add_tree`/`apply` of conversion/powl (with the transitive reduction), as in C19 | the partial-order construction is a block (Proofs_Po); blocks compose; language = inductive definition of POWL traces |
| C72 | process tree → POWL (`to_powl.py`) | sequence = concatenation, unordered = shuffle; induction on the tree |
| C73 | `POWL.simplify` (`objects/powl/obj.py`) | two-level tags for nested orders; closure of the dissolved order = lexicographic order of the nesting; induction on the recursion depth |
| C74 | Model_Interval `conc_inner`/`conc_outer`/`concurrent_activities` (statistics/concurrent_activities/log/get.py); integer timestamps | induction over the sorted trace; counting of pairs transported through the sorting permutation; refutation with a backward event |
| C75 | `efg_inner`/`efg_outer`, `uvcl_*` (statistics/eventually_follows/log, uvcl) | same counting of pairs; `keep_first_following` as the first position; agreement with the variants version by regrouping |
| C76 | `ct_step`, `cycle_time` (statistics/traces/cycle_time/util/compute.py) | loop invariant: production time = busy instants before the start of the current period; order-independence from uniqueness; refutation of "total production time" |
| C77 | `case_point`, `tree_overlap`, `overlap`, `case_overlap` (statistics/overlap); the intervaltree library is trusted to be a set of intervals with `tree[a:b]` = begin < b and end > a | spans by fold; duplicate removal harmless when spans are distinct; refutation with identical spans |
| C78 | Model_Ocel `propagate_events` and the event filters (objects/ocel/util/filtering_utils.py, algo/filtering/ocel, filtering.py, sampling.py); tables are lists of rows, no missing values | membership of the selected identifiers; `part_by_events` (Spec_Ocel) is the independent specification; referential integrity from it |
| C79 | `propagate_objects`, `filter_objects` with levels, `filter_object_types`, `sample_objects` | induction on the level: `expand` = objects within n meetings |
| C80 | `conn_comp`, `cc_object/length/otype/activity`; networkx components as in Model_IM | components = classes of the reflexive-transitive closure of meeting; refutation with an isolated object |
| C81 | `filter_type_activities` with names as lists of characters | unique splitting at the first separator character; refutation with the real shape of the separator |
| C82 | `flatten`; pandas merge trusted | the rows of a case as repetitions of the events by the multiplicity of the relation |
| C83 | the five object graphs (algo/transformation/ocel/graphs) | invariant of the scan: the objects seen are those of the earlier events |
| C84 | prefix tree (algo/transformation/log_to_trie, objects/trie) | effect of one insertion on every path (existing, other, new), then induction on the variants |
| C85 | view-based transition systems (algo/discovery/transition_system), the iteration order of the state set a parameter | invariant of the construction over the steps; path built from unique names |
| C86 | rework statistics for logs and dataframes (statistics/rework) | counting by occurrences; both equal the number of traces with two occurrences |
| C87 | both workflow-net checks (analysis/workflow_net, check_soundness.check_wfnet) | reachability in the short-circuited graph; paths avoid the added transition; undirected connectivity |
| C88 | Murata/Berthelot implicit-place removal (murata.py); LP solver = feasibility oracle | witnesses of the integer program give an invariant dominating the tokens of later places; simulation in both directions |
| C68 | Precision: ETConformance (alignment variant; token variant for an arbitrary activation function) | search invariants on the synchronous product; counting |
| C89 | decompose / get_graph_components (objects/petri_net/utils/decomposition.py) | components partition the places; local runs are glued by induction on the sequence; for traces silent prefixes of all components are scheduled before each visible activity |
| C90 | PNML export and import over XML trees (Model_Pnml) | equation import (export net) = net by element-wise reading lemmas, folds over arcs and markings (Props_Pnml) |
| C91 | PTML export (breadth-first node list, edges) and import (heap of nodes, loop repair) over XML trees (Model_Ptml) | the node list equals the queue followed by the children of its elements and is a permutation of the depth-first list; heap invariant through nodes, edges and loop repair; unfolding by tree induction (Proofs_Ptml, Props_Ptml) |
| C92 | business_hours.py: slot union, overlaps, loop over weeks (Model_Hours) | measure of sets of ticks as duplicate-free lists; union invariant over sorted slots; induction on weeks (Props_Hours) |
| C93 | Model_Sna: handover, working_together, subcontracting over the variants with their counts (rational arithmetic) | folds over positions, variants and the log; sums over variants with counts equal sums over cases (counted); two refutations document the pandas divisor and the subcontracting indentation |
| C94 | Model_Ocdfg: find_associations_per_edge, aggregations, edge performance, associations per activity / type / first / last row | the double loop is one fold over the visited (event, object) pairs with an invariant on consecutive occurrences (steps); projection of the visits on an object gives next_event; refutation for repeated relations |
| C95 | Model_Roles: normalisation, multiset intersection / union, similarity, candidate pairs, merge iteration, loop (fuel), initial roles | invariant rinv (each role's counter is the events of its activities, roles partition the activities, reachable by merges); the code's similarity equals the spec's similarity on shares; every merge shortens the list |
| C96 | Model_DeclareDisc: the per-trace rows (step1 functions), the table with zero-filled and derived columns (step2 functions), the thresholds and their automatic selection, with the exceptions | Proofs_DeclareDisc1-4: value of each template in a trace against Spec_Declare.holds (pairwise test on position lists = succession); invariant over the 16 table steps; fold over the columns; Props_DeclareDisc |
| C97 | chunk_regex importer on texts: pieces, chunk merging, element handling with a heap of dictionaries (Model_Xes) | reading chunk by chunk = running the handler over the kept pieces of the whole text (Proofs_Xes1), induction over the chunks |
| C98 | line_by_line exporter (quoteattr, attributes, lists, nested, globals, traces) and the importer of C97 | every exported fragment is a sequence of tags (`tagged`), each tag's effect on the heap computed, then the returned log viewed (Proofs_Xes2, Proofs_Xes3, Props_Xes) |
| C99 | Heuristics Miner on a log: cleaning, dependency matrix, connection of nodes, AND measures, loops of length two, isolated activities (Model_Heu) | specification in terms of counts of the log (Spec_Heu); observations of the net through each phase, an invariant on the loops added (Proofs_Heu1-3, Props_Heu) |
| C100 | Model_ToTree: requirements and merges of choice/sequence/concurrency/loop, place splitting, main loop, fold, sort; sets iterated in an arbitrary order | interval semantics for nets labelled with languages (Proofs_ToTree1-2), each rule a two-way simulation under an invariant NI (no unmarked siphon feeds a transition) and safety of the result (3-7), main loop and measure (8, 11), bridge to Spec_Petri (9-10) |
| C101 | Model_TreeUtil: structurally_equal (greedy matching of the children) | equivalence with an inductive relation of reordering; greedy matching is complete because the relation is an equivalence |
| C102 | Model_TreeUtil: reduce_tree on top of Model_Bottomup and fold; positions of equal nodes chosen arbitrarily | footprints give skippability and activities (induction on trees); language congruence for 'same over the activities of the trace'; the last bottom-up node is the root |
| C103 | Model_Bpmn: places and transitions of nodes and flows, reduction (Model_TreeNet.simple_reduction), removal of isolated places | every transition enters, performs or leaves a node (and conversely); simulation both ways, where a token before a node remembers the flows it came from and a token behind it guesses the flows it will take; C66 for the reduction |
| C104 | wf_net/variants/to_bpmn.py (nodes and flows of places, silent and labelled transitions, start and end event) and bpmn/util/reduction.py (one exclusive gateway at a time, any order) | each flow stands for a multiset of places of the net; a node step of the diagram either keeps the multiset or fires one transition; conversely a firing is played by the gateways, task and exiting gateway of the transition; the reduction by renaming the tokens of the two flows; termination by the number of nodes, with reachability from the start event kept; round trip with C103 |
| C105 | playout of directly-follows graphs (algo/simulation/playout/dfg/variants/classic.py): shares, the best-first loop as a relation over rounds (any of the equally probable partial traces), the selection loop with all its settings, trace probability | invariant: every partial trace has the chance of its prefix, and for each allowed trace the number of partials that are a prefix of it plus the number of times it was yielded is one; a measure for the end; sums of chances by induction on the length of the traces; the selection loop by induction on the yielded traces |
| C106 | log conversions (objects/conversion/log/variants/to_event_log.py, to_event_stream.py, to_data_frame.py): events as dictionaries with string keys, prefix handling with str.startswith and str.replace, grouping by case id, columns and missing cells of a dataframe, mutation without deep copy | invariant of the grouping loop: the dictionary of traces is the map of a declarative grouping over the distinct ids so far; then equality of the grouping of the flattened log with the log; lookups commute with equality of contents |
| C107 | batches: merging of overlapping and near intervals over heapq lists, type of a batch (Model_Batches) | invariant: spans and cover under permutation of the list; at the end neighbours are separated, so all pairs are; the type by sorted permutations; refutation of nearness by computation |
| C108 | interval_lifecycle.py: to_interval with its queues, to_lifecycle with its sorting, lead/cycle/wasted time (Model_Lifecycle) | queue invariant: the queue of a key lists the waiting starts, by induction on the prefix; round trip by strong induction on positions in the sorted entries; lead and cycle as counts of seconds, by splitting and extensionality, in an invariant over the prefix |
| C109 | activities_to_alphabet, get_new_char and the encoding dictionaries (Model_Encode) | value of a word in bijective base 26: strictly monotone for shortlex, value of the i-th code is i+1, so the codes are the shortlex enumeration; invariant over the dictionary of characters, pigeonhole for the skipping loop |
| C110 | points_subset, sample_dataframe, split, split_train_test, get_prefixes (log and dataframe), insert_artificial_start_end (log and dataframe) (Model_Sample) | arithmetic of the two roundings; filters extensionally; cumcount by induction with the rows seen; stable insertion sort commutes with taking the rows of a case, and start, rows, end are already sorted |
| C111 | get_language and the input of the earth mover's distance (encode_two_languages, normalized_levensthein, the matrix) in Model_Emd, transport plans in Spec_Emd | the encoding is injective (C109), both key lists are sorted permutations of each other, so equal; a cell is 0 only on the diagonal (C17); so a plan of cost 0 moves nothing and the diagonal plan has cost 0 |
| C112 | performance.py, native.py, passed_time (pre, post, prepost) and service_time on logs, in Model_Passed; the occurrences of pairs by position in Spec_Passed | the dictionary built by append is the grouping of the list of occurrences (induction from the right); sums over the filtered entries equal sums over the filtered occurrences |

## Trusted base
* Coq 8.16.1 kernel with its VM (`vm_compute` is used for witnesses and examples; no `native_compute`).
* `Print Assumptions` of every property theorem prints "Closed under the global context", with the
  exception of the theorems of C39 (temporal profile) and C70_generalization_* (square roots), which use the
  axioms of the standard library's reals: `ClassicalDedekindReals.sig_forall_dec`,
  `ClassicalDedekindReals.sig_not_dec` and `FunctionalExtensionality.functional_extensionality_dep`.
* Files loaded by the libraries bring further constants into scope that no theorem uses
  (`Coq.ssr.ssrunder.Under_rel.*` via std++, `Classical_Prop.classic` via Reals).
* Libraries: Coq stdlib and std++ (finite maps). No axioms, functors, module types, plugins of our own.
* The correspondence model/code is by reading only; simplifications are noted at each definition.

## Modelled and not modelled
Modelled: the functions cited in the `Model_*.v` files listed above.
General simplifications: floats are exact rationals (reals in C39); Python exceptions are `None`;
time is an integer; object identity is a number; logging, progress bars, parameter plumbing,
multiprocessing, caching decorators, deprecated wrappers are left out; pandas is modelled by the relational
meaning of the calls used (group by, merge, shift, isin) on lists of rows.
Not modelled: visualisation, file formats other than DFG text (XES, PNML, PTML, BPMN, OCEL), LP solver
internals, heuristics miner, log-skeleton/decision mining, organisational mining, object-centric
algorithms, machine-learning features, Neural/embedding code, simulation with time (Monte Carlo), ILP miner.
