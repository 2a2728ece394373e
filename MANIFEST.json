{
 "claims": [
  {
   "property": "C01",
   "status": "proved",
   "theorems": [
    "C01_edgelist_neighbors"
   ],
   "note": ""
  },
  {
   "property": "C02",
   "status": "proved",
   "theorems": [
    "C02_edgelist_accepts"
   ],
   "note": ""
  },
  {
   "property": "C03",
   "status": "proved",
   "theorems": [
    "C03_matrix_not_square",
    "C03_matrix_neighbors"
   ],
   "note": ""
  },
  {
   "property": "C04",
   "status": "proved",
   "theorems": [
    "C04_adjlist_accepts",
    "C04_adjlist_neighbors"
   ],
   "note": ""
  },
  {
   "property": "C05",
   "status": "proved",
   "theorems": [
    "C05_to_adjlist",
    "C05_to_matrix",
    "C05_adjlist_round_trip",
    "C05_matrix_round_trip"
   ],
   "note": "contents and both round trips"
  },
  {
   "property": "C06",
   "status": "partial",
   "theorems": [
    "C06_to_edgelist_partial",
    "C06_exact",
    "C06_uninitialised_refuted",
    "C06_out_of_bounds_refuted"
   ],
   "note": "false of the code when n_edges disagrees with the stored edges (two refuted witnesses); proved whenever n_edges is right C06_exact says what to_edgelist does in every case."
  },
  {
   "property": "C07",
   "status": "partial",
   "theorems": [
    "C07_edgelist_count_iff",
    "C07_matrix_count_partial",
    "C07_adjlist_count",
    "C07_edgelist_count_refuted",
    "C07_matrix_count_refuted"
   ],
   "note": "false for repeated edges/self-loops and asymmetric matrices (refuted); exact condition for edge lists, adjacency lists always right"
  },
  {
   "property": "C08",
   "status": "proved",
   "theorems": [
    "C08_file_round_trip",
    "C08_wrong_count_refuted",
    "C08_any_count",
    "C08_lost_edge_refuted"
   ],
   "note": "every fresh graph whose n_edges is right (C07); C08_any_count says what is read back for any n_edges: unreadable without edges, edges lost if n_edges is too small (refuted companions), the same graph if it is too large"
  },
  {
   "property": "C09",
   "status": "partial",
   "theorems": [
    "C09_ignored_lines_partial",
    "C09_all_lines_partial",
    "C09_few_lines_partial",
    "C09_vertex_zero_refuted"
   ],
   "note": "proved for files without a line joining vertex 0 to a vertex; false for those lines (refuted); exact result for every well-formed file: vertex 0 is treated as a vertex, the other invalid lines are ignored; the same with fewer lines than announced (C09_few_lines_partial)"
  },
  {
   "property": "C10",
   "status": "proved",
   "theorems": [
    "C10_same_object",
    "C10_same_answers",
    "C10_same_later"
   ],
   "note": "C10_same_later: no program of searches, iterators and exports other than to_edgelist and to_file tells the two objects apart."
  },
  {
   "property": "C11",
   "status": "proved",
   "theorems": [
    "C11_enumeration_memory_safe",
    "C11_search_memory_safe"
   ],
   "note": "get_max_clique and list(all_cliques(k)) after every history of calls, resets and complete enumerations"
  },
  {
   "property": "C12",
   "status": "partial",
   "theorems": [
    "C12_edgeless_refuted",
    "C12_edgeless_undefined"
   ],
   "note": "false: every search of every edgeless graph reads out of bounds (refuted, and proved for all edgeless graphs)"
  },
  {
   "property": "C13",
   "status": "partial",
   "theorems": [
    "C13_live_partial",
    "C13_live_weighted_partial",
    "C13_search_undefined",
    "C13_search_undefined_weighted",
    "C13_hub_dangles",
    "C13_large_refuted",
    "C13_dangling_refuted",
    "C13_exact",
    "C13_exact_weighted",
    "C13_capacity",
    "C13_capacity_weighted"
   ],
   "note": "false: reallocation in set_bounds (refuted for K2, and for graphs of any number of edges with a clique and a vertex of large degree); then no search returns. Proved live when there are at least 5 edges and every degree is below 64 or at most 32*sqrt(edges)-64. C13_exact (and C13_exact_weighted) says exactly which graphs with an edge keep their storage, for every loader, in terms of degrees and the capacity of the vector of edges"
  },
  {
   "property": "C14",
   "status": "proved",
   "theorems": [
    "C14_answers_are_cliques"
   ],
   "note": "after every history of calls, resets and complete enumerations. Standing condition: live storage (C13)."
  },
  {
   "property": "C15",
   "status": "proved",
   "theorems": [
    "C15_maximum",
    "C15_default_bounds"
   ],
   "note": "Standing condition: live storage (C13)."
  },
  {
   "property": "C16",
   "status": "proved",
   "theorems": [
    "C16_enumeration_terminates",
    "C16_search_terminates"
   ],
   "note": "get_max_clique, and every step of an iterator, after every history"
  },
  {
   "property": "C17",
   "status": "proved",
   "theorems": [
    "C17_timed_as_good"
   ],
   "note": "Standing condition: a graph with an edge (C12) and live storage (C13)."
  },
  {
   "property": "C18",
   "status": "proved",
   "theorems": [
    "C18_lower_bound"
   ],
   "note": "Standing condition: live storage (C13)."
  },
  {
   "property": "C19",
   "status": "partial",
   "theorems": [
    "C19_upper_bound_refuted",
    "C19_upper_bound_partial"
   ],
   "note": "first half false (K5, upper_bound=2, refuted); second half proved"
  },
  {
   "property": "C20",
   "status": "proved",
   "theorems": [
    "C20_repeat_same_size"
   ],
   "note": "any history, flags and bounds. Standing condition: a graph with an edge (C12) and live storage (C13)."
  },
  {
   "property": "C21",
   "status": "partial",
   "theorems": [
    "C21_reset_refuted",
    "C21_failed_bound_refuted",
    "C21_reset_partial"
   ],
   "note": "false: CLIQUE_LIMIT and failed lower bounds survive (refuted); proved for histories (searches, enumerations, resets) whose upper bounds do not bind"
  },
  {
   "property": "C22",
   "status": "partial",
   "theorems": [
    "C22_continued_partial",
    "C22_on_time_partial",
    "C22_interrupted_refuted"
   ],
   "note": "false: the interrupted root is skipped (refuted); proved: after k interrupted calls at most k roots, and vertex n, are missing; with no interruption the answer is maximum"
  },
  {
   "property": "C23",
   "status": "partial",
   "theorems": [
    "C23_searched_partial",
    "C23_last_vertex_refuted"
   ],
   "note": "false: off by one at the last vertex (refuted); proved: every other root has been searched, but for one per interrupted call"
  },
  {
   "property": "C24",
   "status": "partial",
   "theorems": [
    "C24_no_search_refuted",
    "C24_no_search_partial"
   ],
   "note": "false for lower_bound 1, the default (refuted); proved for lower_bound >= 2"
  },
  {
   "property": "C25",
   "status": "partial",
   "theorems": [
    "C25_repr_refuted",
    "C25_negated_partial"
   ],
   "note": "false: repr prints the negation (refuted; and proved for every reachable object with a vertex)"
  },
  {
   "property": "C26",
   "status": "partial",
   "theorems": [
    "C26_heuristic_alone_sound",
    "C26_heuristic_neutral_partial",
    "C26_binding_bound_refuted"
   ],
   "note": "soundness proved; neutrality proved unless the upper bound binds (refuted there)"
  },
  {
   "property": "C27",
   "status": "partial",
   "theorems": [
    "C27_unloaded_partial",
    "C27_reset_unloaded_refuted"
   ],
   "note": "reset_search dereferences null (refuted); the other methods raise"
  },
  {
   "property": "C28",
   "status": "proved",
   "theorems": [
    "C28_only_cliques",
    "C28_fresh_graph"
   ],
   "note": "every prefix of the iterator that all_cliques returns, after every history; on fresh graphs also without edges. Standing condition: live storage (C13) and, except on a freshly loaded graph, an edge (C12)."
  },
  {
   "property": "C29",
   "status": "proved",
   "theorems": [
    "C29_no_repeats",
    "C29_fresh_graph"
   ],
   "note": "after every history. Standing condition: live storage (C13) and, except on a freshly loaded graph, an edge (C12)."
  },
  {
   "property": "C30",
   "status": "partial",
   "theorems": [
    "C30_complete_partial",
    "C30_complete_refuted"
   ],
   "note": "false: cliques rooted at vertex 1 are never yielded (refuted); proved: exactly the others are yielded"
  },
  {
   "property": "C31",
   "status": "proved",
   "theorems": [
    "C31_trivial_sizes",
    "C31_after_any_history"
   ],
   "note": "fresh graphs (also edgeless) and after every history. Standing condition: live storage (C13) and, except on a freshly loaded graph, an edge (C12)."
  },
  {
   "property": "C32",
   "status": "partial",
   "theorems": [
    "C32_enumerate_first_partial",
    "C32_enumerate_then_search_refuted"
   ],
   "note": "false after an earlier search (refuted); proved when enumerating comes first, and after reset_search (C21)"
  },
  {
   "property": "C33",
   "status": "partial",
   "theorems": [
    "C33_one_break_partial",
    "C33_breaks_partial",
    "C33_breaks_reset_partial",
    "C33_timed_refuted",
    "C33_abandon_refuted"
   ],
   "note": "false in general (refuted, also for one iterator and a timed search); true for untimed searches while the unfinished iterators are together not larger than a clique and 1"
  },
  {
   "property": "C34",
   "status": "partial",
   "theorems": [
    "C34_nested_partial",
    "C34_two_loops_partial",
    "C34_returned_partial",
    "C34_undisturbed_partial",
    "C34_interleave_refuted"
   ],
   "note": "false for iterators advanced in turn (refuted); true for nested loops, with searches inside them With wide upper bounds every iterator returns exactly the sequence it would return alone on the fresh graph (C34_undisturbed_partial)."
  },
  {
   "property": "C35",
   "status": "proved",
   "theorems": [
    "C35_search_then_enumerate",
    "C35_after_unhurried_calls",
    "C35_after_any_calls"
   ],
   "note": "n <= 65535 for the default upper bound; generally after calls no clock or bound cuts short; after any calls at all, a subsequence (C35_after_any_calls). Standing condition: a graph with an edge (C12) and live storage (C13)."
  },
  {
   "property": "C36",
   "status": "partial",
   "theorems": [
    "C36_edgelist_accepts",
    "C36_matrix_accepts",
    "C36_weights",
    "C36_neighbors",
    "C36_adjlist_undefined",
    "C36_adjlist_refuted"
   ],
   "note": "from_edgelist and from_matrix: proved for every input. from_adjlist never returns an object: for every input it accepts it reads past the end of the weights (C36_adjlist_undefined, C36_adjlist_refuted)."
  },
  {
   "property": "C37",
   "status": "partial",
   "theorems": [
    "C37_clique_positive_partial",
    "C37_clique_or_zero",
    "C37_zero_weights_refuted"
   ],
   "note": "Proved for non-negative weights with a positive one, any bounds, flags, and history of calls and resets; for arbitrary weights the answer is a clique or [0]. All-zero weights with lower_bound <= 0 return [0] (C37_zero_weights_refuted). Conditions: the graph has an edge and the bitset storage is live (C13). Cliques for any rounding of sums; the lower bound when they are exactly representable."
  },
  {
   "property": "C38",
   "status": "partial",
   "theorems": [
    "C38_heaviest_partial",
    "C38_within_partial",
    "C38_isolated_refuted",
    "C38_tight_bound_refuted"
   ],
   "note": "No clique of two or more vertices (or single vertex with a neighbour) is heavier than the answer, on a fresh or reset object. False for heavy isolated vertices (C38_isolated_refuted); a lower bound equal to the optimum raises (C38_tight_bound_refuted). The sums of weights are exactly representable (C72 for others)."
  },
  {
   "property": "C39",
   "status": "proved",
   "theorems": [
    "C39_clique_weight",
    "C39_clique_weight_fresh"
   ],
   "note": "All lists, also with repetitions and numbers outside 1..n (which count 0); fresh objects and any history. The partial sums are exactly representable; C72 has the error bound for others. After a history, not on a fresh object: a graph with an edge (C12) and live storage (C13)."
  },
  {
   "property": "C40",
   "status": "proved",
   "theorems": [
    "C40_heavy_minimal"
   ],
   "note": "Any weights and any W, after any history of searches, resets and complete enumerations. Conditions: the graph has an edge and the bitset storage is live (C13). Cliques, sizes and no repetition for any rounding of the sums; the weight when sums are exactly representable."
  },
  {
   "property": "C41",
   "status": "proved",
   "theorems": [
    "C41_vertices_decode",
    "C41_correspondence"
   ],
   "note": ""
  },
  {
   "property": "C42",
   "status": "proved",
   "theorems": [
    "C42_one_to_one",
    "C42_all_correspondences"
   ],
   "note": "Graphs built by any of the four builders, any later calls and any clock; the correspondence graph must have an edge (the search of an edgeless graph is undefined, C12) and live storage (C13). Also proved for the iterator."
  },
  {
   "property": "C43",
   "status": "proved",
   "theorems": [
    "C43_close_matches_kept",
    "C43_with_condition"
   ],
   "note": "Exact arithmetic, any symmetry flags that are true of the metrics; also with a condition."
  },
  {
   "property": "C44",
   "status": "partial",
   "theorems": [
    "C44_extra_edge_refuted",
    "C44_nearest_partial",
    "C44_nearest_with_condition_partial",
    "C44_one_each_side_partial",
    "C44_one_each_side_with_condition_partial"
   ],
   "note": "Refuted: the entries of set 2 next to the interval are matched too. Proved: nothing further away is, and on either side of the interval at most one pair is."
  },
  {
   "property": "C45",
   "status": "partial",
   "theorems": [
    "C45_equal_distances_refuted",
    "C45_boundary_refuted",
    "C45_single_distance_partial"
   ],
   "note": "Refuted for repeated distances at the boundary. Proved when d2(j,j') occurs once."
  },
  {
   "property": "C46",
   "status": "proved",
   "theorems": [
    "C46_condition_respected"
   ],
   "note": "The condition was asked about (i,i',j,j') or about (i',i,j',j); the former if d1 is declared symmetric and i < i'."
  },
  {
   "property": "C47",
   "status": "partial",
   "theorems": [
    "C47_condition_only_refuted",
    "C47_lost_edge_refuted",
    "C47_ordered_partial",
    "C47_total_partial"
   ],
   "note": "Refuted: the reversed match is added without asking. Proved: adjacent iff the condition accepts the pair in increasing order of both sets."
  },
  {
   "property": "C48",
   "status": "partial",
   "theorems": [
    "C48_one_element_refuted",
    "C48_always_out_of_bounds",
    "C48_other_sizes_partial"
   ],
   "note": "Refuted: out-of-bounds read for every n1 >= 2 with n2 = 1. Proved safe for all other sizes."
  },
  {
   "property": "C49",
   "status": "proved",
   "theorems": [
    "C49_iso_adjacency",
    "C49_total"
   ],
   "note": ""
  },
  {
   "property": "C50",
   "status": "partial",
   "theorems": [
    "C50_edgeless_product_refuted",
    "C50_maximum_embedding_partial",
    "C50_embeddings_partial"
   ],
   "note": "Refuted for products without edges (the search is undefined). Proved whenever the product has an edge, with default arguments and no time limit; every answer after any calls is an embedding."
  },
  {
   "property": "C51",
   "status": "partial",
   "theorems": [
    "C51_missing_neighbour_refuted",
    "C51_key_error_refuted",
    "C51_when_right_partial",
    "C51_contents_partial"
   ],
   "note": "Refuted: v2 is built from indices[0] (isograph.py:27), so neighbours are missing or KeyError is raised. Proved for every answer of every call: exactly when KeyError is raised, what the dictionaries contain otherwise, and exactly when they are right."
  },
  {
   "property": "C52",
   "status": "proved",
   "theorems": [
    "C52_word_count",
    "C52_set",
    "C52_reset",
    "C52_toggle",
    "C52_test",
    "C52_next",
    "C52_count",
    "C52_get_subset",
    "C52_intersection",
    "C52_union",
    "C52_symmetric_difference",
    "C52_difference",
    "C52_copy",
    "C52_clear",
    "C52_block_empty"
   ],
   "note": "set, reset, toggle, test, next, count, clear, block_empty, get_subset, and/or/xor/minus and copy, with frame condition"
  },
  {
   "property": "C53",
   "status": "partial",
   "theorems": [
    "C53_shift_defined_iff_partial",
    "C53_defined_shift_refuted"
   ],
   "note": "false of the code: ALL_ONES << 64 for every length divisible by 64 (refuted); exact characterisation proved"
  },
  {
   "property": "C54",
   "status": "proved",
   "theorems": [
    "C54_find_exact",
    "C54_find_resume"
   ],
   "note": ""
  },
  {
   "property": "C55",
   "status": "proved",
   "theorems": [
    "C55_clean_edges"
   ],
   "note": "radix sort with insertion sort below 33 entries, then unique"
  },
  {
   "property": "C56",
   "status": "partial",
   "theorems": [
    "C56_rebuild_refuted",
    "C56_rebuild_partial"
   ],
   "note": "false (refuted); what is kept is exactly the position and search_done, otherwise the object is as new"
  },
  {
   "property": "C57",
   "status": "partial",
   "theorems": [
    "C57_every_text_partial",
    "C57_after_header_partial",
    "C57_uninit_refuted",
    "C57_no_lines_refuted",
    "C57_count_wraps_refuted",
    "C57_negative_count_refuted"
   ],
   "note": "false: empty file, header without lines, wrapping or negative counts (refuted). Proved for every text: it ends with a graph, an exception, or one of these three kinds of undefined behaviour; after a well-formed header the case is decided exactly"
  },
  {
   "property": "C58",
   "status": "partial",
   "theorems": [
    "C58_minimal_partial",
    "C58_covers_partial",
    "C58_vertex_1_refuted"
   ],
   "note": "False for cliques the search starts at vertex 1 (C58_vertex_1_refuted): the enumerator starts at vertex 2. Proved for all other cliques: all minimal ones are listed, hence every heavy one contains a listed one. Sums of weights exactly representable and rounding monotone."
  },
  {
   "property": "C59",
   "status": "proved",
   "theorems": [
    "C59_graph",
    "C59_nwgraph"
   ],
   "note": "No condition at all on the object, calls, environment or outcome. Calls that end in undefined behaviour have no resulting object."
  },
  {
   "property": "C60",
   "status": "partial",
   "theorems": [
    "C60_adjlist",
    "C60_matrix",
    "C60_edgelist_partial",
    "C60_count_edgelist",
    "C60_count_matrix",
    "C60_edgelist_refuted"
   ],
   "note": "to_adjlist and to_matrix proved. to_edgelist needs the right edge count: proved then (C60_edgelist_partial), with the exact condition for edge lists and symmetric matrices; false otherwise (C60_edgelist_refuted)."
  },
  {
   "property": "C61",
   "status": "partial",
   "theorems": [
    "C61_iterator",
    "C61_correspondence_partial",
    "C61_correspondence_any",
    "C61_one_to_one",
    "C61_all_correspondences",
    "C61_sentinel_refuted"
   ],
   "note": "Proved for non-negative weights with a positive one, after any history; for any weights the only other outcome is ESentinel (C61_correspondence_any), which does occur for all-zero weights (C61_sentinel_refuted). Decoding of all_correspondences and one-to-one matching proved without that restriction. Weights reach the bounds when sums are exactly representable; the rest holds for any rounding. C61_iterator is about the iterator with the lengths it was constructed with."
  },
  {
   "property": "C62",
   "status": "proved",
   "theorems": [
    "C62_graph",
    "C62_nwgraph"
   ],
   "note": "The object may have gone through any calls, also abandoned and interleaved iterators, before and after."
  },
  {
   "property": "C63",
   "status": "partial",
   "theorems": [
    "C63_without_heuristic_partial",
    "C63_complete_partial",
    "C63_heuristic_refuted"
   ],
   "note": "False when the heuristic runs (C63_heuristic_refuted). Proved when the second call does not use it and only get_max_clique was called before (no reset), and, with non-negative weights and bounds that exclude nothing, when the second call searches completely. Sums of weights exactly representable."
  },
  {
   "property": "C64",
   "status": "partial",
   "theorems": [
    "C64_d2_ignored_refuted",
    "C64_kept_partial",
    "C64_nearest_partial",
    "C64_no_metric_partial",
    "C64_condition_only"
   ],
   "note": "False when d2 is given without d1: d2 is then ignored (C64_d2_ignored_refuted). Proved in all other cases; adjacency is stated as in C43 and C44."
  },
  {
   "property": "C65",
   "status": "proved",
   "theorems": [
    "C65_maximum_correspondence",
    "C65_elements",
    "C65_elements_with_condition",
    "C65_later_searches",
    "C65_all_correspondences"
   ],
   "note": "Assumes that d2 is not given without d1 (C64), symmetric metrics, a graph with an edge (C12) and live storage (C13)."
  },
  {
   "property": "C66",
   "status": "partial",
   "theorems": [
    "C66_left_of_canvas_refuted",
    "C66_undefined_refuted",
    "C66_always_undefined",
    "C66_transformation",
    "C66_filter_partial",
    "C66_same_points",
    "C66_graph_partial",
    "C66_total_partial"
   ],
   "note": "False when a control point lands outside the range of u64: coordinates between -1 and 0 count as 0 (C66_left_of_canvas_refuted), others are undefined (C66_always_undefined). Proved when all land at coordinates a u64 can hold. Coordinates are exact rationals and the linear solver is replaced by its exact solution."
  },
  {
   "property": "C67",
   "status": "partial",
   "theorems": [
    "C67_progress_refuted",
    "C67_monotone_partial"
   ],
   "note": "false: a call can leave everything unchanged, for ever (refuted); proved: answer and resume position never go back"
  },
  {
   "property": "C68",
   "status": "proved",
   "theorems": [
    "C68_order",
    "C68_fresh_graph",
    "C68_decides",
    "C68_weighted"
   ],
   "note": "After any history of calls (one edge needed; none on a freshly loaded graph), for one iterator advanced any number of times, and that the order is total. NWGraph: any weights and any W, provided sums of weights are exactly representable. Standing condition: live storage (C13)."
  },
  {
   "property": "C69",
   "status": "partial",
   "theorems": [
    "C69_lost_refuted",
    "C69_kept_partial",
    "C69_well_inside_partial",
    "C69_kept_with_condition_partial"
   ],
   "note": "False as stated: the rounded lower end can be a distance strictly inside the interval, and of several pairs at that distance some are lost (C69_lost_refuted). Proved: kept if the distance is unique in set 2 or is not one of the rounded ends, and kept always if the difference is below epsilon by more than 3*2^-53*(d1+epsilon)."
  },
  {
   "property": "C70",
   "status": "proved",
   "theorems": [
    "C70_extra_matches",
    "C70_one_each_side",
    "C70_extra_matches_metric",
    "C70_one_each_side_metric"
   ],
   "note": "For any rounding to nearest of finite doubles."
  },
  {
   "property": "C71",
   "status": "partial",
   "theorems": [
    "C71_same_sequence_partial",
    "C71_subsequence_partial",
    "C71_bound_refuted",
    "C71_negative_refuted"
   ],
   "note": "False after a search with an upper bound that excludes a clique (C71_bound_refuted) and with negative weights (C71_negative_refuted). Proved: nonnegative weights and no bound excluding a clique give the same sequence; with nonnegative weights and any bounds a subsequence. Sums of weights exactly representable and rounding monotone."
  },
  {
   "property": "C72",
   "status": "partial",
   "theorems": [
    "C72_exact_on_grid",
    "C72_heaviest_partial",
    "C72_complete_partial",
    "C72_heaviest_refuted",
    "C72_drift_refuted",
    "C72_threshold_refuted",
    "C72_complete_refuted",
    "C72_order_refuted",
    "C72_weight_error"
   ],
   "note": "False for weights whose sums are rounded (C72_heaviest_refuted, C72_drift_refuted, C72_threshold_refuted, C72_complete_refuted, C72_order_refuted). Proved for rounding to nearest and weights on a common grid of at most 2^53 steps; for any non-negative weights an error bound for get_clique_weight."
  },
  {
   "property": "C73",
   "status": "partial",
   "theorems": [
    "C73_decodes",
    "C73_zero_undefined",
    "C73_zero_refuted",
    "C73_range_refuted"
   ],
   "note": "len2 >= 1: no undefined behaviour, j < len2, the pairs stand for a clique, and i < len1 if n <= len1 * len2 (C73_decodes). False otherwise: len1 is ignored (C73_range_refuted) and len2 = 0 divides by zero whenever a clique is found (C73_zero_refuted, C73_zero_undefined)."
  },
  {
   "property": "C74",
   "status": "partial",
   "theorems": [
    "C74_points",
    "C74_rotation",
    "C74_centroid",
    "C74_best_partial",
    "C74_exact",
    "C74_refuted"
   ],
   "note": "False: svd returns the third factor already transposed and _format_correspondence transposes it again (C74_refuted: a set matched with itself). For points with an exact motion the answer is right exactly if that factor is symmetric or all points coincide (C74_exact); with a symmetric factor it is the least-squares optimum (C74_best_partial). Always a rotation that sends centroid to centroid. Exact arithmetic in any ordered field; svd is a parameter assumed to return a valid decomposition; theta: C78."
  },
  {
   "property": "C75",
   "status": "partial",
   "theorems": [
    "C75_agree_partial",
    "C75_graph_partial",
    "C75_same_points_refuted",
    "C75_float32_refuted"
   ],
   "note": "They agree, as do the graphs, if the conversion to float32 in MaskFilter changes neither the points nor the transformation and the percentage is positive (C75_agree_partial, C75_graph_partial). False otherwise: equal points of set 2 with percentage 0 (C75_same_points_refuted), integer coordinates of 25 bits (C75_float32_refuted). Exact rationals apart from that conversion."
  },
  {
   "property": "C76",
   "status": "partial",
   "theorems": [
    "C76_enumerate_partial",
    "C76_search",
    "C76_size_1_refuted"
   ],
   "note": "The sequences are the same for k >= 2 (C76_enumerate_partial), if the sums of weights are not rounded; the searches return maximum cliques (C76_search). False for k = 1 (C76_size_1_refuted)."
  },
  {
   "property": "C77",
   "status": "partial",
   "theorems": [
    "C77_undefined",
    "C77_exact",
    "C77_unused_partial",
    "C77_ended_partial",
    "C77_stale_refuted",
    "C77_ended_refuted"
   ],
   "note": "False: after a yield of a clique of two or more vertices, building again and advancing is undefined (C77_stale_refuted, and C77_undefined for all objects, builders and iterators; C77_exact says when it stops instead); an ended iterator can start again (C77_ended_refuted). Proved: an unused iterator lists the new graph; an ended one stays ended while the graph does not grow. Iterators of Graph; NWGraph objects are not rebuilt."
  },
  {
   "property": "C78",
   "status": "partial",
   "theorems": [
    "C78_matrix",
    "C78_direction",
    "C78_exact",
    "C78_refuted",
    "C78_half_turn"
   ],
   "note": "Proved: rotmat is the matrix of theta in the form tests/test_align.py uses (C78_matrix). False: as points are rows, rotmat turns them by -theta (C78_direction), so that theta, dx, dy do not send S1 to S2 (C78_refuted; C78_exact says when they do). A matrix rounded to an entry below -1 gets theta 0 instead of half a turn (C78_half_turn); whether numpy produces such a matrix is not modelled. Exact arithmetic; cos, sin, arccos are any functions with cos^2 + sin^2 = 1, even and odd, and arccos inverting cos on the half circle with sin >= 0."
  },
  {
   "property": "C79",
   "status": "partial",
   "theorems": [
    "C79_same_algorithm_refuted",
    "C79_only_largest",
    "C79_recursion_first",
    "C79_stack_first",
    "C79_same_answer"
   ],
   "note": "False: on a ring of five vertices the search with a time limit returns [1, 2], the other [1, 5] (C79_same_algorithm_refuted). Proved: they agree if the maximum clique is unique (C79_only_largest); otherwise, without the heuristic, which clique each returns (C79_recursion_first, C79_stack_first), so that each answer is determined by the edges (C79_same_answer). The first call on a fresh object; with the heuristic the answer also depends on the sorting function."
  },
  {
   "property": "C80",
   "status": "partial",
   "theorems": [
    "C80_light_refuted",
    "C80_heavy_refuted",
    "C80_light",
    "C80_clique",
    "C80_heaviest_partial"
   ],
   "note": "False: the default bounds 1 and 65535 are those of Graph. Cliques that weigh less than 1 make the call raise (C80_light_refuted; C80_light for all graphs of which every clique weighs less), and the search stops at the first clique found of weight 65535 or more (C80_heavy_refuted). Proved: the answer is a clique of weight 1 or more, after any calls and for any weights, never [0] (C80_clique); fresh or reset, with non-negative weights, no clique of two or more vertices is heavier unless the answer weighs 65535 or more, and if the call raises none weighs more than 1 (C80_heaviest_partial). Sums of weights exactly representable."
  },
  {
   "property": "C81",
   "status": "proved",
   "theorems": [
    "C81_one_break",
    "C81_breaks",
    "C81_breaks_reset",
    "C81_nested",
    "C81_two_loops",
    "C81_returned",
    "C81_undisturbed",
    "C81_abandon_refuted",
    "C81_interleave_refuted"
   ],
   "note": "As C33 and C34 for NWGraph. Beyond the room (C81_abandon_refuted: two iterators left at triangles) the search reads out of bounds, and iterators advanced in turn miss cliques (C81_interleave_refuted). 'heaviest' and 'the same sequence' assume weights that are not negative and sums exactly representable, as in C38 and C58; 'heaviest' is meant as in C38. Standing condition: a graph with an edge (C12) and live storage (C13)."
  },
  {
   "property": "C82",
   "status": "proved",
   "theorems": [
    "C82_same_object",
    "C82_same_later"
   ],
   "note": "Everything except n_edges and whether construction reallocated, as C10. No program of searches, iterators, weights and exports other than to_edgelist tells the objects apart (C82_same_later). from_adjlist is not among the loaders: it reads past the end of the weights whenever it accepts its input (C36)."
  },
  {
   "property": "C83",
   "status": "proved",
   "theorems": [
    "C83_graph",
    "C83_nwgraph",
    "C83_completed_refuted"
   ],
   "note": "Judged from the program alone. A depth-first search with a time limit may or may not set it (C22, C23, C67) and is left open here. That search_done is True once the search has been completed is false (C83_completed_refuted)."
  },
  {
   "property": "C84",
   "status": "partial",
   "theorems": [
    "C84_search_refuted",
    "C84_search",
    "C84_iterate"
   ],
   "note": "false: any search of an edgeless NWGraph reads past the end of the memory (proved for all of them), and a loop does exactly if a vertex other than the first reaches the threshold"
  },
  {
   "property": "C85",
   "status": "partial",
   "theorems": [
    "C85_no_search_refuted",
    "C85_sentinel_refuted",
    "C85_single",
    "C85_no_search_partial"
   ],
   "note": "false with the default bounds, and with all weights negative vertex 0 is returned (both refuted); proved that at most one vertex is returned, and that the call raises if lb > 0 is above every weight"
  },
  {
   "property": "C86",
   "status": "partial",
   "theorems": [
    "C86_unloaded_partial",
    "C86_reset_unloaded_refuted"
   ],
   "note": "reset_search and the vertex queries dereference null (refuted); the other methods raise"
  },
  {
   "property": "C87",
   "status": "partial",
   "theorems": [
    "C87_upper_refuted",
    "C87_lower_refuted",
    "C87_bounds_partial"
   ],
   "note": "False: the answer can be heavier than upper_bound (C87_upper_refuted), and as heavy as lower_bound (C87_lower_refuted) although other cliques of that weight make the call raise (C38_tight_bound_refuted). Proved for fresh or reset objects, non-negative weights with exactly representable sums, the depth-first search included: at least as heavy as lower_bound, and no clique of two or more vertices is heavier unless upper_bound is reached."
  },
  {
   "property": "C88",
   "status": "proved",
   "theorems": [
    "C88_search",
    "C88_correspondence",
    "C88_list",
    "C88_programs"
   ],
   "note": "The scratch buffer is read only where the current vertex wrote it, for every rounding and every history; std::sort on ties is the only freedom that may show, and only through the heuristic. Standing condition: a graph with an edge (C12) and live storage (C13)."
  },
  {
   "property": "C89",
   "status": "proved",
   "theorems": [
    "C89_search",
    "C89_correspondence",
    "C89_list",
    "C89_programs",
    "C89_midway_differs"
   ],
   "note": "Every run follows the same machine on sets of positions, whose end determines every word of the graph; std::sort on ties is the only freedom that may show, and only through the heuristic. Standing condition: a graph with an edge (C12) and live storage (C13)."
  },
  {
   "property": "C90",
   "status": "partial",
   "theorems": [
    "C90_identity_missing_refuted",
    "C90_isograph_refuted",
    "C90_complete_partial",
    "C90_after_calls_partial",
    "C90_single_matches",
    "C90_elements_partial",
    "C90_embeddings_partial",
    "C90_indices_partial",
    "C90_iterator_elements_partial"
   ],
   "note": "false: a correspondence containing the match of the first elements is left out unless another of its matches has fewer neighbours, and IsoGraph.all_correspondences raises TypeError (both refuted); proved: exactly the others are listed, once each, from the metrics to the elements; for IsoGraph through the method of the base class. C90_indices_partial and C90_iterator_elements_partial are about the iterator with the lengths it was constructed with."
  },
  {
   "property": "C91",
   "status": "proved",
   "theorems": [
    "C91_graph",
    "C91_correspondences",
    "C91_nwgraph",
    "C91_nw_correspondences",
    "C91_elements"
   ],
   "note": "For the clique and correspondence iterators of Graph and NWGraph and the wrapped iterators over elements; the premise that list(it) ends is C16, C29 and C40."
  },
  {
   "property": "C92",
   "status": "partial",
   "theorems": [
    "C92_larger_epsilon",
    "C92_larger_epsilon_metric",
    "C92_maximum",
    "C92_condition",
    "C92_rounding_refuted",
    "C92_rounding_partial"
   ],
   "note": "Proved if the ends of the interval are exact, and for one epsilon with any rounding; false in floating-point arithmetic, where a larger epsilon can lower the upper end of the interval (refuted), unless the differences are exact."
  },
  {
   "property": "C93",
   "status": "partial",
   "theorems": [
    "C93_smaller_refuted",
    "C93_elements_partial",
    "C93_elements_with_condition_partial",
    "C93_later_searches"
   ],
   "note": "False as stated: three elements at distance 10 and three at distance 9.9 with epsilon 0.1 can all be matched and two are (refuted). Proved: the distances are within epsilon up to rounding or next to the interval, and no matching whose distances are inside the interval by more than the rounding is larger."
  },
  {
   "property": "C94",
   "status": "partial",
   "theorems": [
    "C94_indices_partial",
    "C94_dictionary_partial"
   ],
   "note": "Inherits the exceptions of C44 (one distance next to the interval on either side), C66 (control points outside the range of u64, here excluded) and C74 (rotmat is a rotation, not always the best one). Assumes symmetric distances, a graph with an edge (C12) and live storage (C13)."
  },
  {
   "property": "C95",
   "status": "partial",
   "theorems": [
    "C95_missing_refuted",
    "C95_listed_partial",
    "C95_iterator_partial"
   ],
   "note": "False: the alignment of a triangle with its image is found by get_correspondence but not listed, because it contains the match of the first points (refuted). Proved: what is listed is aligned (with the exceptions of C94) and listed once, and only alignments containing the match of the first points can be missing. C95_iterator_partial is about the iterator with the lengths it was constructed with."
  },
  {
   "property": "C96",
   "status": "partial",
   "theorems": [
    "C96_metric_refuted",
    "C96_iso_refuted",
    "C96_condition_partial",
    "C96_maximum_partial",
    "C96_metric_partial",
    "C96_iso_partial"
   ],
   "note": "False for metrics (distances 6, 7, 8 and 6, 7, 10 with epsilon 1: 3 pairs one way, 2 the other) and for graphs (a path and a triangle: 3 and 2); both refuted. Proved: exactly true for conditions only, with equal sizes for any two transposed graphs with an edge (C12) and live storage (C13); for symmetric metrics up to distances next to the interval and equal distances at its ends (C44, C45); for graphs the common edges are the matches that keep edges and non-edges."
  },
  {
   "property": "C97",
   "status": "partial",
   "theorems": [
    "C97_induced_refuted",
    "C97_decides_partial"
   ],
   "note": "The second half is false: the path is matched with the triangle (refuted; an edge of the second graph must be one of the first, not conversely). Proved: the equivalence, if the product has an edge (C12) and live storage (C13), one of the graphs has at most 65535 vertices (the default upper bound) and there is no time limit."
  },
  {
   "property": "C98",
   "status": "partial",
   "theorems": [
    "C98_listed_refuted",
    "C98_maximum_partial",
    "C98_listed_partial"
   ],
   "note": "First half proved (fresh objects with an edge and live storage, C12 and C13). Second half false: a clique is missing or listed depending on whether it contains vertex 1 (refuted, from C30). Proved: what is listed stays listed unless it contains the new vertex 1, and if vertex 1 keeps its number the lists agree exactly."
  },
  {
   "property": "C99",
   "status": "partial",
   "theorems": [
    "C99_listed_refuted",
    "C99_maximum_partial",
    "C99_listed_partial"
   ],
   "note": "First half proved (fresh objects with an edge and live storage), also that any number of new edges does not shrink the maximum. Second half false: the new edge can raise the degree of the one vertex that came before vertex 1 (refuted). Proved: a listed clique stays listed if it does not contain vertex 1 or if no other vertex of it is an end of the new edge."
  },
  {
   "property": "C100",
   "status": "partial",
   "theorems": [
    "C100_epsilon_refuted",
    "C100_rounding_refuted",
    "C100_contained_partial",
    "C100_contained_rounded_partial"
   ],
   "note": "False if a distance changes by exactly epsilon, and in floating point if epsilon is lost in the subtraction: three equidistant elements matched with themselves give two pairs (both refuted). Proved if every distance changes by less than epsilon (exact interval ends), or by less with three units of 2^-53 to spare (rounded ends); the storage is live (C13)."
  },
  {
   "property": "C101",
   "status": "partial",
   "theorems": [
    "C101_programs_partial",
    "C101_load",
    "C101_search_partial",
    "C101_list",
    "C101_weight_partial",
    "C101_doubles",
    "C101_heuristic_refuted"
   ],
   "note": "every program that does not use the heuristic sees the same (C101_programs, C101_search, C101_list); with the heuristic and the depth-first search the weight is the same; refuted for the heuristic alone, which compares the number of candidates with a weight"
  },
  {
   "property": "C102",
   "status": "partial",
   "theorems": [
    "C102_metric",
    "C102_condition",
    "C102_answers_partial",
    "C102_with_condition_partial",
    "C102_exceptions",
    "C102_exact",
    "C102_factor_refuted"
   ],
   "note": "the very same graph for every factor that rounding respects (any factor with exact numbers, powers of two with doubles) and a std::sort that only compares; refuted for doubles and the factor 3"
  },
  {
   "property": "C103",
   "status": "partial",
   "theorems": [
    "C103_grows_partial",
    "C103_renumber_partial",
    "C103_heuristic_refuted",
    "C103_listed_refuted",
    "C103_renumber_listed_refuted"
   ],
   "note": "proved for the depth-first search, with or without the heuristic, from graphs with an edge and non-negative weights with exact sums; the lighter side may be any clique any earlier call returned. Refuted for the heuristic alone (a raised weight makes it return a lighter clique) and for all_cliques (a triangle is no longer listed when one of its weights is raised), and the number of cliques it lists changes with the numbers of the vertices"
  },
  {
   "property": "C104",
   "status": "partial",
   "theorems": [
    "C104_search_partial",
    "C104_size_partial",
    "C104_heuristic_partial",
    "C104_weighted_heuristic_refuted",
    "C104_list",
    "C104_weight_partial",
    "C104_weighted_search_partial",
    "C104_weighted_search_refuted",
    "C104_weighted_list",
    "C104_single_refuted"
   ],
   "note": "the same clique without the heuristic (both depth-first searches of Graph; NWGraph if no new vertex outweighs every old one with its later neighbours, refuted otherwise), one of the same size or weight with it; the same sequence of cliques of two or more vertices. Refuted for all_cliques(1), which lists the new vertices. The heuristic of Graph alone gives a clique of the same size if std::sort does the same in both (C104_heuristic_partial; missing: that it is the same clique); that of NWGraph alone can give a much lighter one (C104_weighted_heuristic_refuted). Graphs with an edge (C12) and live storage (C13)"
  },
  {
   "property": "C105",
   "status": "partial",
   "theorems": [
    "C105_matrix",
    "C105_adjlist_partial",
    "C105_edgelist_partial",
    "C105_adjlist_refuted",
    "C105_weighted_matrix",
    "C105_weighted_edgelist_partial"
   ],
   "note": "matrices without further conditions; adjacency lists if from_adjlist is told the number of edges, which n_edges is not if an edge was given twice (refuted for n_edges); edge lists if n_edges is right (C06, C07). Missing: NWGraph.from_adjlist, which is undefined (C36), and whether the copy's bitsets dangle exactly if those of the first object do (C13)"
  },
  {
   "property": "C106",
   "status": "proved",
   "theorems": [
    "C106_first",
    "C106_same_answer",
    "C106_heuristic_refuted"
   ],
   "note": "the answer has to have two or more vertices (C84 and C86 are about the other cases); refuted with the heuristic. Graphs with an edge (C12), live storage (C13), weights that are not negative and exact sums (C38)"
  },
  {
   "property": "C107",
   "status": "proved",
   "theorems": [
    "C107_depth",
    "C107_needed"
   ],
   "note": "A version of get_max_clique whose call stack has room for D nested calls gives the same result as get_max_clique if no clique has more than D vertices. For graphs with an edge (C12) and live storage (C13). C107_needed: without the heuristic, on a new object, room for fewer calls than the answer has vertices is not enough."
  },
  {
   "property": "C108",
   "status": "partial",
   "theorems": [
    "C108_size",
    "C108_heuristic_refuted",
    "C108_list",
    "C108_complete",
    "C108_weight_partial",
    "C108_weighted_complete",
    "C108_weighted_list"
   ],
   "note": "Graph: proved for use_dfs; with the heuristic alone it is false (C108_heuristic_refuted). C108_weight_partial needs non-negative weights with exact sums and answers of two vertices or more, like C38. The searches need an edge in each graph (C12). C108_complete is a way around the gap of C30."
  },
  {
   "property": "C109",
   "status": "partial",
   "theorems": [
    "C109_size",
    "C109_weight_partial"
   ],
   "note": "Graph: proved. C109_weight_partial needs non-negative weights with exact sums and answers of two vertices or more, like C38, and no vertex without neighbours in the two graphs: the heaviest clique may use such a vertex, which NWGraph does not return alone. The searches need an edge in each graph (C12)."
  },
  {
   "property": "C110",
   "status": "proved",
   "theorems": [
    "C110_colours",
    "C110_list",
    "C110_mapped",
    "C110_weight"
   ],
   "note": "For graphs with an edge (C12); all_cliques on a new object. Standing condition: live storage (C13)."
  },
  {
   "property": "C111",
   "status": "partial",
   "theorems": [
    "C111_disp",
    "C111_fresh",
    "C111_nwgraph",
    "C111_nwgraph_fresh",
    "C111_weight_refuted",
    "C111_edges_refuted",
    "C111_every_vertex_refuted"
   ],
   "note": "Proved for both functions after any history of a graph with an edge (C12) and live storage (C13). The last sentence is false: the number counts the vertex itself, vertices without a later neighbour are left out, and the weight printed is the bound of the vertex (C111_edges_refuted, C111_every_vertex_refuted, C111_weight_refuted). How std::cout and std::cerr mix is not modelled."
  },
  {
   "property": "C112",
   "status": "partial",
   "theorems": [
    "C112_greedy_refuted",
    "C112_greedy_partial"
   ],
   "note": "False as stated (C112_greedy_refuted). Proved: the answer is at most one vertex smaller, and only where the greedy choice takes all later neighbours of v (graph with an edge, live storage; the lower bound must have been met, otherwise the call raises)."
  }
 ]
}