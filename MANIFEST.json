{
 "claims": [
  {
   "property": "C01",
   "status": "proved",
   "theorems": [
    "C01_lcm_sound"
   ],
   "note": ""
  },
  {
   "property": "C02",
   "status": "proved",
   "theorems": [
    "C02_lcm_complete",
    "C02_lcm_defined"
   ],
   "note": ""
  },
  {
   "property": "C03",
   "status": "proved",
   "theorems": [
    "C03_lcm_no_duplicates"
   ],
   "note": ""
  },
  {
   "property": "C04",
   "status": "proved",
   "theorems": [
    "C04_max_length_only_filters"
   ],
   "note": ""
  },
  {
   "property": "C05",
   "status": "proved",
   "theorems": [
    "C05_schedule_independent",
    "C05_transaction_order_independent"
   ],
   "note": ""
  },
  {
   "property": "C06",
   "status": "partial",
   "theorems": [
    "C06_file_equals_memory_partial",
    "C06_file_equals_memory_refuted",
    "C06_exact"
   ],
   "note": "Proved for item strings without line breaks and, when tids are requested, positive thresholds; refuted for min_supp=0.0 with tids (blank tids lines are dropped). C06_exact gives the file for every threshold: only the line of transactions of a row that has none is missing."
  },
  {
   "property": "C07",
   "status": "proved",
   "theorems": [
    "C07_lcmmax_exact"
   ],
   "note": ""
  },
  {
   "property": "C08",
   "status": "partial",
   "theorems": [
    "C08_min_supp_checked_partial",
    "C08_nan_min_supp_refuted",
    "C08_growth_rate_checked",
    "C08_exact"
   ],
   "note": "min_supp check exact for every argument except NaN, which is accepted (refuted); growth rate check exact. C08_exact: for all values, NaN is the only one that is accepted without being valid."
  },
  {
   "property": "C09",
   "status": "partial",
   "theorems": [
    "C09_positive_support_partial",
    "C09_zero_support_refuted",
    "C09_exact"
   ],
   "note": "Refuted for min_supp=0.0; proved for every other accepted threshold. C09_exact: for every threshold an itemset that occurs nowhere is the set of all items, and with 0.0 that set is always reported."
  },
  {
   "property": "C10",
   "status": "proved",
   "theorems": [
    "C10_filter_maximal_exact"
   ],
   "note": ""
  },
  {
   "property": "C11",
   "status": "proved",
   "theorems": [
    "C11_filter_minimal_exact"
   ],
   "note": ""
  },
  {
   "property": "C12",
   "status": "proved",
   "theorems": [
    "C12_cover_exact"
   ],
   "note": ""
  },
  {
   "property": "C13",
   "status": "proved",
   "theorems": [
    "C13_fit_lossless",
    "C13_fit_defined"
   ],
   "note": ""
  },
  {
   "property": "C14",
   "status": "partial",
   "theorems": [
    "C14_updates_lossless_partial",
    "C14_updates_defined",
    "C14_repeated_update_refuted",
    "C14_repeated"
   ],
   "note": "Proved for every history of prefit and updates with itemsets not yet in the code table (C14_updates_lossless_partial); refuted for an itemset already there (C14_repeated_update_refuted). C14_repeated says exactly what goes wrong there: without pruning, such an update always leaves the itemset with an empty usage, for every database, history and order of the table."
  },
  {
   "property": "C15",
   "status": "proved",
   "theorems": [
    "C15_round_improves",
    "C15_fit_not_worse",
    "C15_fit_terminates"
   ],
   "note": ""
  },
  {
   "property": "C16",
   "status": "proved",
   "theorems": [
    "C16_pruning_safe"
   ],
   "note": ""
  },
  {
   "property": "C17",
   "status": "proved",
   "theorems": [
    "C17_usage_bounded"
   ],
   "note": ""
  },
  {
   "property": "C18",
   "status": "proved",
   "theorems": [
    "C18_cover_new_transactions",
    "C18_cover_new_table"
   ],
   "note": ""
  },
  {
   "property": "C19",
   "status": "proved",
   "theorems": [
    "C19_predict_best"
   ],
   "note": ""
  },
  {
   "property": "C20",
   "status": "partial",
   "theorems": [
    "C20_partition_partial",
    "C20_pruning_ignored_refuted",
    "C20_always_pruned"
   ],
   "note": "The partition by label is proved; the pruning option is not passed on to the per-class models (C20_pruning_ignored_refuted). C20_always_pruned: every model prunes whatever the option."
  },
  {
   "property": "C21",
   "status": "partial",
   "theorems": [
    "C21_reconstruct_partial",
    "C21_reconstruct_nothing",
    "C21_trailing_empty_refuted"
   ],
   "note": "Proved up to the last non-empty transaction (C21_reconstruct_partial); trailing empty transactions are lost (C21_trailing_empty_refuted)."
  },
  {
   "property": "C22",
   "status": "partial",
   "theorems": [
    "C22_support_single_fit_partial",
    "C22_refit_stale_refuted",
    "C22_history"
   ],
   "note": "Proved for a single fit and any sequence of queries, for every cache policy; refuted after a second fit (stale cache). C22_history holds for every history of fits and questions and every cache policy: each item of an answer is looked up in one of the data sets fitted so far, and only the last one decides which items are unknown."
  },
  {
   "property": "C23",
   "status": "partial",
   "theorems": [
    "C23_vectorizer_partial",
    "C23_empty_data_refuted",
    "C23_nan_refuted",
    "C23_exact"
   ],
   "note": "Proved for non-empty data; refuted for no transaction (one row) and for codes that are NaN when no applicable pattern was used in training. C23_exact holds for every new database: at least one row, no column without transactions, and exactly when cells are NaN."
  },
  {
   "property": "C24",
   "status": "proved",
   "theorems": [
    "C24_border_diff"
   ],
   "note": ""
  },
  {
   "property": "C25",
   "status": "proved",
   "theorems": [
    "C25_mbdllborder"
   ],
   "note": ""
  },
  {
   "property": "C26",
   "status": "partial",
   "theorems": [
    "C26_enumerates_partial",
    "C26_right_border_refuted",
    "C26_not_emerging_refuted"
   ],
   "note": "C26_enumerates_partial: exactly the subsets of the right border between the minimal size and one less than its size that are not contained in an element of the left border are listed, once each; hence everything strictly inside the interval is. The right border itself is omitted and patterns outside the interval are listed (both refuted)."
  },
  {
   "property": "C27",
   "status": "proved",
   "theorems": [
    "C27_bron_kerbosch",
    "C27_bronKerbosch3Plus"
   ],
   "note": ""
  },
  {
   "property": "C28",
   "status": "proved",
   "theorems": [
    "C28_view_items",
    "C28_one_dimension",
    "C28_all_axes",
    "C28_rows"
   ],
   "note": ""
  },
  {
   "property": "C29",
   "status": "partial",
   "theorems": [
    "C29_intersect_partial",
    "C29_missed_row_refuted",
    "C29_exact"
   ],
   "note": "Soundness is full; completeness holds when rows of one array have distinct first columns and fails otherwise (C29_missed_row_refuted). C29_exact says for all arrays which common rows are found: those which are in both arrays the first row with their first value."
  },
  {
   "property": "C30",
   "status": "proved",
   "theorems": [
    "C30_param_names",
    "C30_round_trip",
    "C30_unknown_name"
   ],
   "note": ""
  },
  {
   "property": "C31",
   "status": "partial",
   "theorems": [
    "C31_results_unchanged_partial",
    "C31_called_after_method",
    "C31_called_once_partial",
    "C31_unknown_method",
    "C31_exception_added_refuted",
    "C31_called_twice_refuted",
    "C31_attached_twice_refuted",
    "C31_constructor",
    "C31_frozen_partial",
    "C31_inherited",
    "C31_mutable_refuted"
   ],
   "note": "Order, constructor and unknown methods proved; results and single calls under the stated premises; exceptions added, double calls, double attachment and inherited dict mutators are refutations."
  },
  {
   "property": "C32",
   "status": "proved",
   "theorems": [
    "C32_transactions",
    "C32_clipped",
    "C32_rejected"
   ],
   "note": ""
  },
  {
   "property": "C33",
   "status": "proved",
   "theorems": [
    "C33_classification",
    "C33_empty_class"
   ],
   "note": ""
  },
  {
   "property": "C34",
   "status": "proved",
   "theorems": [
    "C34_describe"
   ],
   "note": ""
  },
  {
   "property": "C35",
   "status": "proved",
   "theorems": [
    "C35_lossless"
   ],
   "note": ""
  },
  {
   "property": "C36",
   "status": "proved",
   "theorems": [
    "C36_round_trip",
    "C36_injective"
   ],
   "note": ""
  },
  {
   "property": "C37",
   "status": "proved",
   "theorems": [
    "C37_merge",
    "C37_sort"
   ],
   "note": ""
  },
  {
   "property": "C38",
   "status": "proved",
   "theorems": [
    "C38_sequence"
   ],
   "note": ""
  },
  {
   "property": "C39",
   "status": "proved",
   "theorems": [
    "C39_times",
    "C39_corrections",
    "C39_counts"
   ],
   "note": ""
  },
  {
   "property": "C40",
   "status": "proved",
   "theorems": [
    "C40_simple_cycle",
    "C40_median"
   ],
   "note": ""
  },
  {
   "property": "C41",
   "status": "proved",
   "theorems": [
    "C41_optimal"
   ],
   "note": ""
  },
  {
   "property": "C42",
   "status": "proved",
   "theorems": [
    "C42_terminates",
    "C42_selection",
    "C42_greedy",
    "C42_saves"
   ],
   "note": ""
  },
  {
   "property": "C43",
   "status": "partial",
   "theorems": [
    "C43_reconstruct",
    "C43_chosen",
    "C43_lossless_partial",
    "C43_full_cover_refuted",
    "C43_no_pattern_refuted",
    "C43_subset_refuted"
   ],
   "note": "Lossless when at least one pattern was found and at least one event is residual; refuted when everything is covered, when there is no pattern, and for a proper subset of the patterns. For any list of pattern numbers, reconstruct gives the occurrences of those patterns, one row each or each event once, and an unknown number raises IndexError (C43_chosen)."
  },
  {
   "property": "C44",
   "status": "partial",
   "theorems": [
    "C44_concat_partial",
    "C44_union_partial",
    "C44_concat_refuted",
    "C44_concat_events"
   ],
   "note": "Proved when every part but the last has a single top-level child; C44_concat_refuted shows a part with two children before the last makes the pattern put later events at the wrong times (ds[ei] is indexed by part). C44_concat_events: in every case the concatenation has exactly the dated events of the repetitions of its parts (the corrections are what may be wrong)."
  },
  {
   "property": "C45",
   "status": "proved",
   "theorems": [
    "C45_nested",
    "C45_nested_events"
   ],
   "note": ""
  },
  {
   "property": "C46",
   "status": "proved",
   "theorems": [
    "C46_factorise"
   ],
   "note": ""
  },
  {
   "property": "C47",
   "status": "partial",
   "theorems": [
    "C47_add",
    "C47_history_partial",
    "C47_duplicates",
    "C47_new",
    "C47_reset",
    "C47_properties",
    "C47_rows",
    "C47_single",
    "C47_single_adds_refuted",
    "C47_batch_after_single_refuted",
    "C47_duplicate_with_cost_refuted"
   ],
   "note": "Proved for every history of addCands and resetNew calls, with exceptions caught; refuted for addCand with its default with_props=True, whose second call raises AttributeError after recording the candidate; addCands with costOne raises AttributeError on a duplicate."
  },
  {
   "property": "C48",
   "status": "partial",
   "theorems": [
    "C48_roundtrip_partial",
    "C48_same_answers_partial",
    "C48_reexport_refuted",
    "C48_export_refuted",
    "C48_pattern_ids_refuted",
    "C48_integer_events_refuted",
    "C48_time_scale_refuted"
   ],
   "note": "Same answers after the round trip up to the renumbering stated in the theorem, with automatic time scale and at least one pattern; refuted: re-export, export without time scale or patterns, pattern ids, integer events, time scale option."
  },
  {
   "property": "C49",
   "status": "proved",
   "theorems": [
    "C49_original",
    "C49_adjusted",
    "C49_of_log"
   ],
   "note": ""
  },
  {
   "property": "C50",
   "status": "proved",
   "theorems": [
    "C50_fit"
   ],
   "note": ""
  },
  {
   "property": "C51",
   "status": "proved",
   "theorems": [
    "C51_bins"
   ],
   "note": ""
  },
  {
   "property": "C52",
   "status": "proved",
   "theorems": [
    "C52_rounded",
    "C52_frequencies",
    "C52_cut_point",
    "C52_criterion"
   ],
   "note": ""
  },
  {
   "property": "C53",
   "status": "partial",
   "theorems": [
    "C53_cover_partial",
    "C53_digraph",
    "C53_parallel_refuted"
   ],
   "note": "Full for DiGraph (C53_digraph). For multigraphs the mark is per end points and name: C53_cover_partial gives exactly one use per (start, end, name); two parallel edges with the same name are covered once (C53_parallel_refuted)."
  },
  {
   "property": "C54",
   "status": "partial",
   "theorems": [
    "C54_support_partial",
    "C54_support_refuted",
    "C54_empty",
    "C54_exact",
    "C54_none"
   ],
   "note": "False as stated: the first data node met for each pattern node is not counted (C54_support_refuted). C54_support_partial: the result is the minimum-image support or one less, and exact when every first image is met again. C54_exact gives the value for all embeddings: the smallest count, over the pattern nodes, of the data nodes met after the first; C54_none covers embeddings without nodes."
  },
  {
   "property": "C55",
   "status": "proved",
   "theorems": [
    "C55_prefix_code",
    "C55_error",
    "C55_with0",
    "C55_kraft"
   ],
   "note": ""
  },
  {
   "property": "C56",
   "status": "proved",
   "theorems": [
    "C56_binomial",
    "C56_returned",
    "C56_error"
   ],
   "note": ""
  },
  {
   "property": "C57",
   "status": "proved",
   "theorems": [
    "C57_plug_in",
    "C57_permutation",
    "C57_empty"
   ],
   "note": ""
  },
  {
   "property": "C58",
   "status": "partial",
   "theorems": [
    "C58_counts",
    "C58_list_error",
    "C58_total_partial",
    "C58_total",
    "C58_total_refuted"
   ],
   "note": "Counts per side are exact (C58_counts); the total is exact when no name labels both a vertex and an edge (C58_total_partial), too small by the edge occurrences of the shared names otherwise (C58_total, C58_total_refuted); list-valued labels raise TypeError (C58_list_error)."
  },
  {
   "property": "C59",
   "status": "partial",
   "theorems": [
    "C59_equal_partial",
    "C59_reflexive",
    "C59_symmetric",
    "C59_transitive",
    "C59_inverse",
    "C59_own_inverse",
    "C59_direction_refuted",
    "C59_pure_refuted",
    "C59_symmetric_refuted"
   ],
   "note": "Equality is direction-dependent (C59_direction_refuted), asymmetric with repeated ports (C59_symmetric_refuted) and comparing with c.inverse() modifies c (C59_pure_refuted). With ports listed once it is: same labels in order, same ports (C59_equal_partial)."
  },
  {
   "property": "C60",
   "status": "partial",
   "theorems": [
    "C60_monotone_partial",
    "C60_accept_once",
    "C60_ties_refuted",
    "C60_optimum_partial"
   ],
   "note": "Acceptance only on strict decrease and single evaluation are proved without condition (C60_accept_once). The final length is at most the initial one when the length does not depend on the place of rows that tie on labels, support and arrival number (C60_monotone_partial); with such a dependence it can be larger (C60_ties_refuted). The length of a table and the candidate generator are arbitrary functions. Under the same condition and without a time limit, the table returned is a local optimum: every candidate generated for it was tried and makes it no shorter (C60_optimum_partial)."
  },
  {
   "property": "C61",
   "status": "proved",
   "theorems": [
    "C61_text",
    "C61_int",
    "C61_text_open",
    "C61_int_open"
   ],
   "note": ""
  },
  {
   "property": "C62",
   "status": "proved",
   "theorems": [
    "C62_emerging_borders",
    "C62_growth",
    "C62_refuses"
   ],
   "note": ""
  },
  {
   "property": "C63",
   "status": "partial",
   "theorems": [
    "C63_fewer_samples_refuted",
    "C63_samples_partial"
   ],
   "note": "C63_samples_partial: the number of samples is the sum of the truncated class shares; it can be smaller than n_samples (C63_fewer_samples_refuted)."
  },
  {
   "property": "C64",
   "status": "proved",
   "theorems": [
    "C64_describe_logs"
   ],
   "note": ""
  },
  {
   "property": "C65",
   "status": "partial",
   "theorems": [
    "C65_same_order_partial",
    "C65_by_name_refuted",
    "C65_exact"
   ],
   "note": "Proved when the columns come in the fitted order; refuted for reordered columns (cut points are applied by position). C65_exact: for every frame, columns are binned by their place, and which frames raise which error."
  },
  {
   "property": "C66",
   "status": "partial",
   "theorems": [
    "C66_partition",
    "C66_all_examined_refuted",
    "C66_unexamined",
    "C66_lengths"
   ],
   "note": "Partition proved for every length; refuted that every occurrence is examined: above 200 occurrences the last block can be skipped. C66_unexamined and C66_lengths say for every length which occurrences are behind all blocks and for which lengths there are some."
  },
  {
   "property": "C67",
   "status": "proved",
   "theorems": [
    "C67_top_k",
    "C67_cheapest"
   ],
   "note": ""
  },
  {
   "property": "C68",
   "status": "partial",
   "theorems": [
    "C68_history",
    "C68_copy_refuted"
   ],
   "note": "Proved for every history of completed covers of the same graph object (C68_history); refuted for a networkx copy, which shares the mark dicts but not the marker (C68_copy_refuted)."
  },
  {
   "property": "C69",
   "status": "partial",
   "theorems": [
    "C69_stops",
    "C69_returns_refuted"
   ],
   "note": "Stopping is proved (C69_stops); returning is refuted: a candidate generated again after being tested reaches a call of the logger object and raises TypeError (C69_returns_refuted)."
  },
  {
   "property": "C70",
   "status": "proved",
   "theorems": [
    "C70_lexicographic_order"
   ],
   "note": ""
  },
  {
   "property": "C71",
   "status": "proved",
   "theorems": [
    "C71_transform_depends_on_last_fit"
   ],
   "note": ""
  },
  {
   "property": "C72",
   "status": "proved",
   "theorems": [
    "C72_sizes_are_description_lengths",
    "C72_fit_compresses"
   ],
   "note": "Over real numbers (the code uses float32/64). Data without any item is excluded: there the code computes NaN."
  },
  {
   "property": "C73",
   "status": "partial",
   "theorems": [
    "C73_code_length_partial",
    "C73_single_itemset_refuted",
    "C73_few"
   ],
   "note": "Proved when the code table has at least two itemsets. With a single itemset its code has 0 bits and the result is +inf (C73_single_itemset_refuted). C73_few: with fewer than two itemsets every transaction is scored +inf."
  },
  {
   "property": "C74",
   "status": "proved",
   "theorems": [
    "C74_decision_range",
    "C74_predict_shortest_code"
   ],
   "note": ""
  },
  {
   "property": "C75",
   "status": "partial",
   "theorems": [
    "C75_merge_partial",
    "C75_singletons",
    "C75_loop_refuted",
    "C75_three_names_refuted",
    "C75_common_edge_refuted"
   ],
   "note": "Proved when loops of the second pattern lie on ports and, in a DiGraph, no edge lies on an edge of the first pattern (C75_merge_partial); the patterns the search starts from qualify (C75_singletons). A loop elsewhere raises (C75_loop_refuted), a third name on a node makes a list label on which the label count raises (C75_three_names_refuted), and a common edge loses its first name (C75_common_edge_refuted)."
  },
  {
   "property": "C76",
   "status": "partial",
   "theorems": [
    "C76_rewritten_partial",
    "C76_lossless_partial",
    "C76_order_refuted",
    "C76_loop_refuted",
    "C76_clash_refuted"
   ],
   "note": "Proved for graphs without loops, when rows without edges come after the others and have one node, and no name reads like the number of a node (C76_rewritten_partial, C76_lossless_partial: equal rewritten graphs imply equal graphs up to renumbering). Without these: a row without edges before a row with edges hides a shared node, and two different graphs have the same rewritten graph (C76_order_refuted); a loop keeps one of its two ports (C76_loop_refuted); a name equal to a node number receives the port edges (C76_clash_refuted). Isolated nodes without name are never represented."
  },
  {
   "property": "C77",
   "status": "partial",
   "theorems": [
    "C77_candidates_partial",
    "C77_shared_name_refuted",
    "C77_row_name_refuted"
   ],
   "note": "Proved under the conditions of C76 when, moreover, no name is both an edge name and a node name and none reads P<number>, and the row patterns are numbered as the search numbers them (C77_candidates_partial). A name on a node and on an edge gives a candidate whose pattern does not occur in the data (C77_shared_name_refuted); a node named like a row hides a candidate (C77_row_name_refuted). Estimated usages and exclusive port counts, which only order the candidates, are not modelled."
  },
  {
   "property": "C78",
   "status": "partial",
   "theorems": [
    "C78_label_codes_partial",
    "C78_label_codes",
    "C78_shared_name_refuted"
   ],
   "note": "Proved for graphs in which no name labels both a vertex and an edge (C78_label_codes_partial); in general the lengths are relative to the total of get_total_label (C78_label_codes), and a shared name can get a negative length (C78_shared_name_refuted)."
  },
  {
   "property": "C79",
   "status": "partial",
   "theorems": [
    "C79_encode_kraft_partial",
    "C79_singleton",
    "C79_renumbering",
    "C79_unknown_name",
    "C79_unknown_error",
    "C79_parallel_refuted"
   ],
   "note": "Kraft's inequality is proved for patterns with at least one label and no label twice at one place, and for data in which no name labels both a vertex and an edge (C79_encode_kraft_partial). C79_singleton, C79_renumbering, C79_unknown_name and C79_unknown_error (which exception) hold in general. Parallel edges with the same name can make the call fail (C79_parallel_refuted). Reals instead of floats."
  },
  {
   "property": "C80",
   "status": "partial",
   "theorems": [
    "C80_usage_codes_partial",
    "C80_port_codes",
    "C80_cover_codes_partial",
    "C80_total_partial",
    "C80_no_label",
    "C80_port_usage_refuted",
    "C80_numbering_refuted",
    "C80_shared_name_refuted",
    "C80_port_sets",
    "C80_rewritten_parts_partial"
   ],
   "note": "Codes and positivity are proved for loop-free data in which no name labels both a vertex and an edge, and for tables as in C76 whose patterns are numbered from 1 (C80_cover_codes_partial, C80_total_partial, C80_usage_codes_partial). Over the rows with one pattern, the part that says which nodes are ports is a code (C80_port_sets), and the length of the rewritten graph is the sum of its parts (C80_rewritten_parts_partial). Without labels the call raises ValueError (C80_no_label). The last part is false: the total never depends on port usages (C80_port_usage_refuted, for all tables) and changes with the numbering of pattern nodes (C80_numbering_refuted). A name on vertices and edges gets a wrong singleton code (C80_shared_name_refuted). Reals instead of floats."
  },
  {
   "property": "C81",
   "status": "partial",
   "theorems": [
    "C81_sound_partial",
    "C81_terminates",
    "C81_tail_refuted",
    "C81_hang_refuted",
    "C81_positions_refuted",
    "C81_even_found_partial"
   ],
   "note": "Soundness holds when no maximum period is given or the times are chronological, up to an offset of the chain positions (C81_sound_partial) and below 2000 occurrences three successive ones at equal distances are in a chain or a triple unless its cost is too high (C81_even_found_partial); it ends for chronological times (C81_terminates). False otherwise: from 2000 occurrences on, those after the last full block of 1500 are never looked at (C81_tail_refuted) and chain positions are relative to their block (C81_positions_refuted); on times out of order the search can run for ever (C81_hang_refuted). Costs are arguments."
  },
  {
   "property": "C82",
   "status": "partial",
   "theorems": [
    "C82_merge",
    "C82_event",
    "C82_second_search",
    "C82_patterns",
    "C82_terminates",
    "C82_about_log",
    "C82_lossless",
    "C82_hang_refuted",
    "C82_bound"
   ],
   "note": "Whatever the log, a search that ends returns such patterns (C82_patterns, C82_about_log); on logs in chronological order fit ends and is lossless (C82_lossless, built on C43's theorem, whose exceptions remain: some pattern is kept and some event is not covered). C82_event and C82_merge say which candidate cycles of an event are kept. On logs out of order the search can run for ever (C82_hang_refuted). Costs are arguments."
  },
  {
   "property": "C83",
   "status": "partial",
   "theorems": [
    "C83_occurrences",
    "C83_cycle_parts",
    "C83_cycle_code",
    "C83_triple",
    "C83_triple_refuted",
    "C83_bare",
    "C83_bare_refuted",
    "C83_of_log"
   ],
   "note": "Over the reals. C83_occurrences, C83_cycle_parts, C83_cycle_code and C83_triple hold in full. The last two claims fail: the triple is costed at its shorter gap and kept with the integer mean of the two gaps (C83_triple_refuted), and a cycle as a pattern tree without corrections has no length when its uncorrected span is longer than the log (C83_bare_refuted; C83_bare for the other representation)."
  },
  {
   "property": "C84",
   "status": "proved",
   "theorems": [
    "C84_defined",
    "C84_parts",
    "C84_bare",
    "C84_simple"
   ],
   "note": "Over the reals. C84_defined and C84_parts hold for every pattern with corrections that lies inside the log; C84_simple ties them to computeLengthCycle of C83. Without corrections (E=None) the length can be missing: see C83_bare_refuted."
  },
  {
   "property": "C85",
   "status": "proved",
   "theorems": [
    "C85_pattern_code",
    "C85_collection",
    "C85_collection_code"
   ],
   "note": "Over the reals. C85_pattern_code for patterns, C85_collection (additivity) and C85_collection_code (families of descriptions) for collections. Patterns are told apart up to the numbers of their nodes, which the lengths do not pay for and the occurrences do not depend on."
  },
  {
   "property": "C86",
   "status": "partial",
   "theorems": [
    "C86_nested",
    "C86_choice",
    "C86_same_start",
    "C86_vertical",
    "C86_selection",
    "C86_twice_refuted",
    "C86_lost_refuted"
   ],
   "note": "C86_nested (termination, soundness, exact events, even spacing), C86_choice, C86_same_start and C86_vertical hold for all costs. The last sentence is false: C86_twice_refuted (eleven disjoint candidates, a nested candidate with repeated occurrences) and C86_lost_refuted (three evenly spaced candidates vanish when two distant candidates are added, because positions in the sorted list are taken out of a set of positions in the unsorted one)."
  },
  {
   "property": "C87",
   "status": "partial",
   "theorems": [
    "C87_slice",
    "C87_pair",
    "C87_pairs",
    "C87_horizontal",
    "C87_selected",
    "C87_last_refuted",
    "C87_group_refuted"
   ],
   "note": "C87_slice (the rows up to a time), C87_pair (one pair), C87_pairs (search, sound and complete), C87_horizontal (whole round) and C87_selected (which pairs and groups are returned) hold for all pools and costs. The last sentence is false: C87_last_refuted (a new row that is the last new one is never compared with the old rows after it) and C87_group_refuted (the bound for a group is the cost of the two candidates compared last)."
  },
  {
   "property": "C88",
   "status": "partial",
   "theorems": [
    "C88_patterns",
    "C88_rounds",
    "C88_extends",
    "C88_one_round",
    "C88_lossless_partial",
    "C88_history",
    "C88_bound",
    "C88_exact_refuted",
    "C88_ends_partial"
   ],
   "note": "C88_patterns, C88_rounds, C88_extends, C88_history (which candidates every round looks at and adds) and C88_bound hold for all logs, costs and numbers of rounds. The last sentence is C88_lossless_partial: it holds when the second round finds nothing new (C88_one_round), or when every pattern kept gives back its own occurrences; in general it is false (C88_exact_refuted: a pattern joined in a later round shows events at times they did not happen at). That the rounds end is C88_ends_partial: for a log of fewer than 2000 different times there is a bound on the number of rounds, the same for all costs, orders of iteration and names of nodes. With 2000 or more (factorisation then works in blocks) it is not proved; C88_rounds says what happens for any bound on the number of rounds."
  },
  {
   "property": "C89",
   "status": "partial",
   "theorems": [
    "C89_search",
    "C89_embeddings",
    "C89_cover",
    "C89_lossless",
    "C89_candidates",
    "C89_parallel_refuted",
    "C89_tuple_refuted"
   ],
   "note": "C89_search, C89_embeddings, C89_cover, C89_lossless and C89_candidates hold for all graphs and tables; the hypotheses are on the graph and the patterns only, not on the embeddings. networkx's subgraph search is modelled by its specification (all injective maps that pass its tests, in any order). For graphs with parallel edges the first sentence is false in both directions (C89_parallel_refuted), and a tuple of one name is not found on a node with that name (C89_tuple_refuted); C89_cover holds for these graphs too."
  },
  {
   "property": "C90",
   "status": "partial",
   "theorems": [
    "C90_key",
    "C90_pool",
    "C90_text",
    "C90_table",
    "C90_units",
    "C90_names_refuted",
    "C90_units_refuted",
    "C90_unscaled_refuted",
    "C90_tree_refuted"
   ],
   "note": "C90_key, C90_pool, C90_text, C90_table and C90_units hold for all patterns. Text of time spans is an argument, assumed to differ for different multiples of the time unit and to have no ']'. Without the proviso on event names the default table can be the same for different patterns (C90_names_refuted). For a log with whole numbers the text and the corrections stay in the rescaled unit while t0 and period_major do not (C90_units_refuted). With auto_time_scale=False transform raises AttributeError (C90_unscaled_refuted). The drawing of a tree never shows event names (C90_tree_refuted)."
  },
  {
   "property": "C91",
   "status": "partial",
   "theorems": [
    "C91_last_fit",
    "C91_reads",
    "C91_last_import",
    "C91_asking",
    "C91_new",
    "C91_set_params",
    "C91_drawn",
    "C91_exported",
    "C91_draw_refuted",
    "C91_export_refuted",
    "C91_import_refuted",
    "C91_failed_refuted",
    "C91_unscaled_refuted"
   ],
   "note": "C91_last_fit, C91_reads, C91_last_import, C91_asking and C91_set_params hold for all histories; C91_drawn and C91_exported say what is drawn and exported after the table; mining is an argument that may raise. Without the provisos the claim is false: drawings before the table (C91_draw_refuted), exports after a fit that finds nothing (C91_export_refuted), exports of imported patterns after a fit (C91_import_refuted), a fit that raises (C91_failed_refuted), tables without time scaling (C91_unscaled_refuted)."
  },
  {
   "property": "C92",
   "status": "partial",
   "theorems": [
    "C92_last_fit",
    "C92_asking",
    "C92_no_graph",
    "C92_unfitted",
    "C92_failed_fit",
    "C92_returned",
    "C92_leftover",
    "C92_refit_refuted",
    "C92_timeout_refuted",
    "C92_discover_refuted",
    "C92_failed_refuted"
   ],
   "note": "C92_last_fit, C92_returned, C92_asking, C92_no_graph, C92_unfitted and C92_failed_fit hold for all histories. Without the provisos the claim is false: C92_leftover says that once a fit left rows to prune no later fit of the object finds a pattern (it returns singletons only, or raises), C92_refit_refuted gives a graph on which the second fit raises; a timeout stays (C92_timeout_refuted), discover raises when a pattern is in use (C92_discover_refuted), and after a failed fit the answers are about two graphs (C92_failed_refuted)."
  },
  {
   "property": "C93",
   "status": "partial",
   "theorems": [
    "C93_reported",
    "C93_sole_refuted",
    "C93_shared_name_refuted"
   ],
   "note": "C93_reported says exactly which patterns are reported, on graphs whose vertex and edge names differ. The claim itself is false in two cases: a pattern that makes up the whole cover is left out, because its code has length 0 (C93_sole_refuted), and of a name on nodes and edges only the edge is reported (C93_shared_name_refuted). Lengths are reals."
  },
  {
   "property": "C94",
   "status": "partial",
   "theorems": [
    "C94_no_file",
    "C94_written",
    "C94_read",
    "C94_unit_refuted",
    "C94_twice_refuted"
   ],
   "note": "What is written is proved (C94_written, C94_no_file) and so is what is read (C94_read). The last sentence is false: the file counts minutes and is read as seconds (C94_unit_refuted). The file of started applications can list one twice in the same minute (C94_twice_refuted). The regular expression, the dates and the csv parser are assumed."
  },
  {
   "property": "C95",
   "status": "partial",
   "theorems": [
    "C95_estimate_partial",
    "C95_value",
    "C95_order",
    "C95_self_join_refuted",
    "C95_exclusive_refuted"
   ],
   "note": "Bounds of the estimate, exclusive nodes (C95_estimate_partial), the exact value of the estimate from the uses at the joined nodes (C95_value) and the order (C95_order) are proved for every cover. For the join of a pattern with itself the lower bound holds when the join reads the same in both directions and is false otherwise (C95_self_join_refuted), and the exclusive nodes are then counted in part only (C95_exclusive_refuted). Usages are rationals, code lengths any total preorder."
  },
  {
   "property": "C96",
   "status": "partial",
   "theorems": [
    "C96_shown",
    "C96_lossless",
    "C96_file_partial",
    "C96_stopped",
    "C96_not_text_refuted"
   ],
   "note": "Rows (C96_shown), exactness (C96_lossless) and the file (C96_file_partial) are proved; the file for items that are texts without blanks or line breaks. Full claim false: with items that are not texts, integers for instance, out raises TypeError and leaves an empty file (C96_not_text_refuted); in general the file is left with the rows before the offending one (C96_stopped)."
  },
  {
   "property": "C97",
   "status": "partial",
   "theorems": [
    "C97_csv",
    "C97_kept",
    "C97_again",
    "C97_first",
    "C97_others",
    "C97_killed_refuted",
    "C97_emptied_refuted",
    "C97_source_refuted",
    "C97_error_page_refuted",
    "C97_folder_refuted"
   ],
   "note": "Proved: C97_csv (what to_csv writes, read_csv reads), C97_first, C97_kept, C97_again, C97_others. Full claim false: killed while writing a log, the process leaves a part that later fetches return as the data set, or an empty file on which they raise (C97_killed_refuted, C97_emptied_refuted); the same file name on the other server is answered from the folder (C97_source_refuted); a page that is no data set is stored and every later fetch raises (C97_error_page_refuted); a folder named by the caller is not created (C97_folder_refuted)."
  },
  {
   "property": "C98",
   "status": "partial",
   "theorems": [
    "C98_dates",
    "C98_numbers",
    "C98_lines",
    "C98_plain",
    "C98_line_numbers_refuted",
    "C98_tabs_refuted",
    "C98_event_refuted",
    "C98_unclosed"
   ],
   "note": "Proved: C98_plain (every file without quotes: three line ends, blank lines, short, long and missing lines, words for nothing), C98_dates, C98_numbers, C98_lines with quotes (pandas.to_datetime is an argument). Full claim false: empty lines get no number although the documentation promises line numbers (C98_line_numbers_refuted); an event of tabs alone in its line is skipped (C98_tabs_refuted); events called None, null or NA are read as missing and a third column is dropped silently (C98_event_refuted). C98_unclosed: a quote that is never closed raises ValueError and nothing is read."
  },
  {
   "property": "C99",
   "status": "proved",
   "theorems": [
    "C99_labels",
    "C99_lengths"
   ],
   "note": "Proved for every content that _read_dat accepts."
  },
  {
   "property": "C100",
   "status": "partial",
   "theorems": [
    "C100_read",
    "C100_round",
    "C100_readable",
    "C100_blank",
    "C100_unreadable",
    "C100_label_refuted",
    "C100_parallel_refuted",
    "C100_header_refuted",
    "C100_graph"
   ],
   "note": "Proved: C100_read (files of vertex and edge lines in any order, the last line about a vertex or an edge counts), C100_round (a graph with different vertices and edges comes back as it is, in order), C100_readable and C100_blank (which files raise), C100_graph. Full claim false: a label of several words is cut after the first (C100_label_refuted), of two edges between the same vertices only the last is kept (C100_parallel_refuted), and without the three lines at the top the first three vertices are lost (C100_header_refuted). C100_unreadable: a file with an unreadable line raises, at the first such line, ValueError when a number is malformed and IndexError when the line is too short."
  },
  {
   "property": "C101",
   "status": "partial",
   "theorems": [
    "C101_edges",
    "C101_recover",
    "C101_shows",
    "C101_no_edge",
    "C101_isolated_refuted",
    "C101_raises_refuted",
    "C101_dash_refuted"
   ],
   "note": "Proved: C101_edges, C101_shows, C101_recover (for names and labels without dash and line feed), C101_no_edge (what happens without edges). Full claim false: vertices without edges are not shown (C101_isolated_refuted), a graph without edges and without a vertex 1 raises KeyError (C101_raises_refuted), and dashes in labels make the text ambiguous (C101_dash_refuted)."
  },
  {
   "property": "C102",
   "status": "proved",
   "theorems": [
    "C102_types",
    "C102_counts",
    "C102_figures",
    "C102_str_detailed",
    "C102_mined",
    "C102_alphabet"
   ],
   "note": "Proved over the real numbers: C102_types, C102_counts, C102_figures, C102_str_detailed, C102_mined (a fit with complex=False of a log in chronological order meets the hypotheses and has simple patterns only), C102_alphabet. The text of strDetailed, which the code drops, is not modelled."
  },
  {
   "property": "C103",
   "status": "partial",
   "theorems": [
    "C103_isomorphic",
    "C103_same",
    "C103_equivalence",
    "C103_automorphisms",
    "C103_group",
    "C103_symmetric_refuted",
    "C103_transitive_refuted",
    "C103_group_refuted"
   ],
   "note": "Proved: C103_isomorphic, C103_automorphisms (all graphs), C103_same (one name on each node and edge), C103_equivalence and C103_group (edges have names). False in general: not symmetric when a node has several labels (C103_symmetric_refuted); an edge without name matches any name, so not transitive (C103_transitive_refuted) and automorphisms do not compose (C103_group_refuted). The search of networkx is replaced by the list of all one-to-one maps that pass its tests."
  },
  {
   "property": "C104",
   "status": "partial",
   "theorems": [
    "C104_count",
    "C104_patterns",
    "C104_use",
    "C104_ports",
    "C104_cover",
    "C104_names_refuted"
   ],
   "note": "Proved for logs of uses whose names are not numbers of data nodes and whose ports are different (covers of admissible tables are such: C104_cover): C104_count, C104_ports, C104_use, C104_patterns. False: get_pattern_node_infos also has an entry for every port, under the number of its data node, holding the port labels of the first use with this port (C104_names_refuted; described exactly by C104_patterns)."
  },
  {
   "property": "C105",
   "status": "proved",
   "theorems": [
    "C105_inverse",
    "C105_key",
    "C105_different",
    "C105_ends",
    "C105_display",
    "C105_renamed",
    "C105_figures"
   ],
   "note": "C105_inverse, C105_key (the exact key of every node), C105_different, C105_ends, C105_display, C105_renamed, C105_figures, for trees with root 0 as the code creates them. That mapEvents has replaced some events already when it raises is not modelled."
  },
  {
   "property": "C106",
   "status": "partial",
   "theorems": [
    "C106_cells",
    "C106_check",
    "C106_rows",
    "C106_labels",
    "C106_all_true",
    "C106_setting",
    "C106_lossless",
    "C106_ignored_refuted",
    "C106_short_refuted",
    "C106_setting_refuted"
   ],
   "note": "Proved: C106_cells, C106_check, C106_rows, C106_labels, C106_all_true, C106_lossless, and the exact value of the setting afterwards, C106_setting. False: labels are not ignored on tables (C106_ignored_refuted); fewer labels than rows lose the last rows without a message (C106_short_refuted); the pandas setting mode.use_inf_as_na is switched on by a failed and off by a successful call (C106_setting_refuted). The validation by scikit-learn before prefit is not modelled."
  },
  {
   "property": "C107",
   "status": "proved",
   "theorems": [
    "C107_values",
    "C107_written",
    "C107_other"
   ],
   "note": "C107_written (the written value is the one C48 imports back), C107_values for arbitrary values; C107_other records what the conversion does not reach."
  },
  {
   "property": "C108",
   "status": "partial",
   "theorems": [
    "C108_vertex",
    "C108_edge",
    "C108_number_partial",
    "C108_number_error",
    "C108_number_refuted",
    "C108_loop_refuted",
    "C108_names_refuted"
   ],
   "note": "Proved: C108_vertex for graphs without loops, C108_edge for nodes numbered 1 and 2, C108_number_partial for names of one character, C108_number_error. Full claim false: a loop with a label counts (C108_loop_refuted), other node numbers raise KeyError (C108_names_refuted), a name counts for as many labels as it has characters (C108_number_refuted)."
  },
  {
   "property": "C109",
   "status": "proved",
   "theorems": [
    "C109_info"
   ],
   "note": "Proved: C109_info for all logs given as lists, every total order of names and every way of writing a frequency with three digits."
  },
  {
   "property": "C110",
   "status": "proved",
   "theorems": [
    "C110_pair",
    "C110_ties",
    "C110_short",
    "C110_farthest"
   ],
   "note": "Proved: C110_pair, C110_ties, C110_short for all lists; C110_farthest for runs whose positions go one way (C110_needs_order shows that this is needed)."
  },
  {
   "property": "C111",
   "status": "partial",
   "theorems": [
    "C111_made",
    "C111_assigned_partial",
    "C111_assigned_refuted",
    "C111_alarm_refuted",
    "C111_frozen_partial",
    "C111_frozen_refuted",
    "C111_kept",
    "C111_deleted"
   ],
   "note": "Proved: C111_made gives exactly the collections that are accepted and the errors of the others, in terms of the text that is searched for; C111_assigned_partial: a plain assignment to an attribute is always found; C111_frozen_partial for item assignment and update. Full claim false: augmented assignments and assignments to attributes or elements of attributes are accepted (C111_assigned_refuted), comparisons are rejected (C111_alarm_refuted), setdefault puts in unchecked callbacks (C111_frozen_refuted). C111_kept and C111_deleted: in every sequence of operations a callback stays as it is until it is deleted by name."
  },
  {
   "property": "C112",
   "status": "partial",
   "theorems": [
    "C112_drawing",
    "C112_event_refuted",
    "C112_dates_refuted"
   ],
   "note": "Proved: C112_drawing for trees whose root is a block and whose blocks start with a part at distance 0, as all mined ones do; the nodes come in the order of the tree, the edges are given up to order. Full claim false: a pattern that is a single event gets a line from a node -1 (C112_event_refuted); with dates, parts at the same time are joined by a dotted edge too (C112_dates_refuted)."
  },
  {
   "property": "C113",
   "status": "proved",
   "theorems": [
    "C113_text",
    "C113_names"
   ],
   "note": "Proved: C113_text for every way of writing labels and lengths, C113_names. The total is that of get_total_label, with its defect on labels of both vertices and edges (C58_total_refuted)."
  },
  {
   "property": "C114",
   "status": "partial",
   "theorems": [
    "C114_history",
    "C114_first_partial",
    "C114_exact",
    "C114_stale_refuted"
   ],
   "note": "Proved: C114_first_partial and C114_exact for the first cover of a graph (with no edge listed twice the ports are exactly the shared nodes and those of edge, label and edgeless uses); C114_history: after any covers the list is that of the nodes that were a port in one of them. Full claim false: the ports of earlier covers stay (C114_stale_refuted)."
  }
 ]
}