{
 "C01": [
  "proved",
  ""
 ],
 "C02": [
  "proved",
  ""
 ],
 "C03": [
  "proved",
  ""
 ],
 "C04": [
  "proved",
  ""
 ],
 "C05": [
  "proved",
  "contents and both round trips"
 ],
 "C06": [
  "partial",
  "false of the code when n_edges disagrees with the stored edges (two refuted witnesses); proved whenever n_edges is right C06_exact says what to_edgelist does in every case."
 ],
 "C07": [
  "partial",
  "false for repeated edges/self-loops and asymmetric matrices (refuted); exact condition for edge lists, adjacency lists always right"
 ],
 "C08": [
  "proved",
  "every fresh graph whose n_edges is right (C07); C08_any_count says what is read back for any n_edges: unreadable without edges, edges lost if n_edges is too small (refuted companions), the same graph if it is too large"
 ],
 "C09": [
  "partial",
  "proved for files without a line joining vertex 0 to a vertex; false for those lines (refuted); exact result for every well-formed file: vertex 0 is treated as a vertex, the other invalid lines are ignored; the same with fewer lines than announced (C09_few_lines_partial)"
 ],
 "C10": [
  "proved",
  "C10_same_later: no program of searches, iterators and exports other than to_edgelist and to_file tells the two objects apart."
 ],
 "C11": [
  "proved",
  "get_max_clique and list(all_cliques(k)) after every history of calls, resets and complete enumerations"
 ],
 "C12": [
  "partial",
  "false: every search of every edgeless graph reads out of bounds (refuted, and proved for all edgeless graphs)"
 ],
 "C13": [
  "partial",
  "false: reallocation in set_bounds (refuted for K2, and for graphs of any number of edges with a clique and a vertex of large degree); then no search returns. Proved live when there are at least 5 edges and every degree is below 64 or at most 32*sqrt(edges)-64. C13_exact (and C13_exact_weighted) says exactly which graphs with an edge keep their storage, for every loader, in terms of degrees and the capacity of the vector of edges"
 ],
 "C14": [
  "proved",
  "after every history of calls, resets and complete enumerations. Standing condition: live storage (C13)."
 ],
 "C15": [
  "proved",
  "Standing condition: live storage (C13)."
 ],
 "C16": [
  "proved",
  "get_max_clique, and every step of an iterator, after every history"
 ],
 "C17": [
  "proved",
  "Standing condition: a graph with an edge (C12) and live storage (C13)."
 ],
 "C18": [
  "proved",
  "Standing condition: live storage (C13)."
 ],
 "C19": [
  "partial",
  "first half false (K5, upper_bound=2, refuted); second half proved"
 ],
 "C20": [
  "proved",
  "any history, flags and bounds. Standing condition: a graph with an edge (C12) and live storage (C13)."
 ],
 "C21": [
  "partial",
  "false: CLIQUE_LIMIT and failed lower bounds survive (refuted); proved for histories (searches, enumerations, resets) whose upper bounds do not bind"
 ],
 "C22": [
  "partial",
  "false: the interrupted root is skipped (refuted); proved: after k interrupted calls at most k roots, and vertex n, are missing; with no interruption the answer is maximum"
 ],
 "C23": [
  "partial",
  "false: off by one at the last vertex (refuted); proved: every other root has been searched, but for one per interrupted call"
 ],
 "C24": [
  "partial",
  "false for lower_bound 1, the default (refuted); proved for lower_bound >= 2"
 ],
 "C25": [
  "partial",
  "false: repr prints the negation (refuted; and proved for every reachable object with a vertex)"
 ],
 "C26": [
  "partial",
  "soundness proved; neutrality proved unless the upper bound binds (refuted there)"
 ],
 "C27": [
  "partial",
  "reset_search dereferences null (refuted); the other methods raise"
 ],
 "C28": [
  "proved",
  "every prefix of the iterator that all_cliques returns, after every history; on fresh graphs also without edges. Standing condition: live storage (C13) and, except on a freshly loaded graph, an edge (C12)."
 ],
 "C29": [
  "proved",
  "after every history. Standing condition: live storage (C13) and, except on a freshly loaded graph, an edge (C12)."
 ],
 "C30": [
  "partial",
  "false: cliques rooted at vertex 1 are never yielded (refuted); proved: exactly the others are yielded"
 ],
 "C31": [
  "proved",
  "fresh graphs (also edgeless) and after every history. Standing condition: live storage (C13) and, except on a freshly loaded graph, an edge (C12)."
 ],
 "C32": [
  "partial",
  "false after an earlier search (refuted); proved when enumerating comes first, and after reset_search (C21)"
 ],
 "C33": [
  "partial",
  "false in general (refuted, also for one iterator and a timed search); true for untimed searches while the unfinished iterators are together not larger than a clique and 1"
 ],
 "C34": [
  "partial",
  "false for iterators advanced in turn (refuted); true for nested loops, with searches inside them With wide upper bounds every iterator returns exactly the sequence it would return alone on the fresh graph (C34_undisturbed_partial)."
 ],
 "C35": [
  "proved",
  "n <= 65535 for the default upper bound; generally after calls no clock or bound cuts short; after any calls at all, a subsequence (C35_after_any_calls). Standing condition: a graph with an edge (C12) and live storage (C13)."
 ],
 "C41": [
  "proved",
  ""
 ],
 "C42": [
  "proved",
  "Graphs built by any of the four builders, any later calls and any clock; the correspondence graph must have an edge (the search of an edgeless graph is undefined, C12) and live storage (C13). Also proved for the iterator."
 ],
 "C43": [
  "proved",
  "Exact arithmetic, any symmetry flags that are true of the metrics; also with a condition."
 ],
 "C44": [
  "partial",
  "Refuted: the entries of set 2 next to the interval are matched too. Proved: nothing further away is, and on either side of the interval at most one pair is."
 ],
 "C45": [
  "partial",
  "Refuted for repeated distances at the boundary. Proved when d2(j,j') occurs once."
 ],
 "C46": [
  "proved",
  "The condition was asked about (i,i',j,j') or about (i',i,j',j); the former if d1 is declared symmetric and i < i'."
 ],
 "C47": [
  "partial",
  "Refuted: the reversed match is added without asking. Proved: adjacent iff the condition accepts the pair in increasing order of both sets."
 ],
 "C48": [
  "partial",
  "Refuted: out-of-bounds read for every n1 >= 2 with n2 = 1. Proved safe for all other sizes."
 ],
 "C49": [
  "proved",
  ""
 ],
 "C50": [
  "partial",
  "Refuted for products without edges (the search is undefined). Proved whenever the product has an edge, with default arguments and no time limit; every answer after any calls is an embedding."
 ],
 "C51": [
  "partial",
  "Refuted: v2 is built from indices[0] (isograph.py:27), so neighbours are missing or KeyError is raised. Proved for every answer of every call: exactly when KeyError is raised, what the dictionaries contain otherwise, and exactly when they are right."
 ],
 "C52": [
  "proved",
  "set, reset, toggle, test, next, count, clear, block_empty, get_subset, and/or/xor/minus and copy, with frame condition"
 ],
 "C53": [
  "partial",
  "false of the code: ALL_ONES << 64 for every length divisible by 64 (refuted); exact characterisation proved"
 ],
 "C54": [
  "proved",
  ""
 ],
 "C55": [
  "proved",
  "radix sort with insertion sort below 33 entries, then unique"
 ],
 "C56": [
  "partial",
  "false (refuted); what is kept is exactly the position and search_done, otherwise the object is as new"
 ],
 "C57": [
  "partial",
  "false: empty file, header without lines, wrapping or negative counts (refuted). Proved for every text: it ends with a graph, an exception, or one of these three kinds of undefined behaviour; after a well-formed header the case is decided exactly"
 ],
 "C36": [
  "partial",
  "from_edgelist and from_matrix: proved for every input. from_adjlist never returns an object: for every input it accepts it reads past the end of the weights (C36_adjlist_undefined, C36_adjlist_refuted)."
 ],
 "C37": [
  "partial",
  "Proved for non-negative weights with a positive one, any bounds, flags, and history of calls and resets; for arbitrary weights the answer is a clique or [0]. All-zero weights with lower_bound <= 0 return [0] (C37_zero_weights_refuted). Conditions: the graph has an edge and the bitset storage is live (C13). Cliques for any rounding of sums; the lower bound when they are exactly representable."
 ],
 "C38": [
  "partial",
  "No clique of two or more vertices (or single vertex with a neighbour) is heavier than the answer, on a fresh or reset object. False for heavy isolated vertices (C38_isolated_refuted); a lower bound equal to the optimum raises (C38_tight_bound_refuted). The sums of weights are exactly representable (C72 for others)."
 ],
 "C39": [
  "proved",
  "All lists, also with repetitions and numbers outside 1..n (which count 0); fresh objects and any history. The partial sums are exactly representable; C72 has the error bound for others. After a history, not on a fresh object: a graph with an edge (C12) and live storage (C13)."
 ],
 "C40": [
  "proved",
  "Any weights and any W, after any history of searches, resets and complete enumerations. Conditions: the graph has an edge and the bitset storage is live (C13). Cliques, sizes and no repetition for any rounding of the sums; the weight when sums are exactly representable."
 ],
 "C58": [
  "partial",
  "False for cliques the search starts at vertex 1 (C58_vertex_1_refuted): the enumerator starts at vertex 2. Proved for all other cliques: all minimal ones are listed, hence every heavy one contains a listed one. Sums of weights exactly representable and rounding monotone."
 ],
 "C59": [
  "proved",
  "No condition at all on the object, calls, environment or outcome. Calls that end in undefined behaviour have no resulting object."
 ],
 "C60": [
  "partial",
  "to_adjlist and to_matrix proved. to_edgelist needs the right edge count: proved then (C60_edgelist_partial), with the exact condition for edge lists and symmetric matrices; false otherwise (C60_edgelist_refuted)."
 ],
 "C61": [
  "partial",
  "Proved for non-negative weights with a positive one, after any history; for any weights the only other outcome is ESentinel (C61_correspondence_any), which does occur for all-zero weights (C61_sentinel_refuted). Decoding of all_correspondences and one-to-one matching proved without that restriction. Weights reach the bounds when sums are exactly representable; the rest holds for any rounding. C61_iterator is about the iterator with the lengths it was constructed with."
 ],
 "C62": [
  "proved",
  "The object may have gone through any calls, also abandoned and interleaved iterators, before and after."
 ],
 "C63": [
  "partial",
  "False when the heuristic runs (C63_heuristic_refuted). Proved when the second call does not use it and only get_max_clique was called before (no reset), and, with non-negative weights and bounds that exclude nothing, when the second call searches completely. Sums of weights exactly representable."
 ],
 "C64": [
  "partial",
  "False when d2 is given without d1: d2 is then ignored (C64_d2_ignored_refuted). Proved in all other cases; adjacency is stated as in C43 and C44."
 ],
 "C65": [
  "proved",
  "Assumes that d2 is not given without d1 (C64), symmetric metrics, a graph with an edge (C12) and live storage (C13)."
 ],
 "C66": [
  "partial",
  "False when a control point lands outside the range of u64: coordinates between -1 and 0 count as 0 (C66_left_of_canvas_refuted), others are undefined (C66_always_undefined). Proved when all land at coordinates a u64 can hold. Coordinates are exact rationals and the linear solver is replaced by its exact solution."
 ],
 "C67": [
  "partial",
  "false: a call can leave everything unchanged, for ever (refuted); proved: answer and resume position never go back"
 ],
 "C68": [
  "proved",
  "After any history of calls (one edge needed; none on a freshly loaded graph), for one iterator advanced any number of times, and that the order is total. NWGraph: any weights and any W, provided sums of weights are exactly representable. Standing condition: live storage (C13)."
 ],
 "C69": [
  "partial",
  "False as stated: the rounded lower end can be a distance strictly inside the interval, and of several pairs at that distance some are lost (C69_lost_refuted). Proved: kept if the distance is unique in set 2 or is not one of the rounded ends, and kept always if the difference is below epsilon by more than 3*2^-53*(d1+epsilon)."
 ],
 "C70": [
  "proved",
  "For any rounding to nearest of finite doubles."
 ],
 "C71": [
  "partial",
  "False after a search with an upper bound that excludes a clique (C71_bound_refuted) and with negative weights (C71_negative_refuted). Proved: nonnegative weights and no bound excluding a clique give the same sequence; with nonnegative weights and any bounds a subsequence. Sums of weights exactly representable and rounding monotone."
 ],
 "C72": [
  "partial",
  "False for weights whose sums are rounded (C72_heaviest_refuted, C72_drift_refuted, C72_threshold_refuted, C72_complete_refuted, C72_order_refuted). Proved for rounding to nearest and weights on a common grid of at most 2^53 steps; for any non-negative weights an error bound for get_clique_weight."
 ],
 "C73": [
  "partial",
  "len2 >= 1: no undefined behaviour, j < len2, the pairs stand for a clique, and i < len1 if n <= len1 * len2 (C73_decodes). False otherwise: len1 is ignored (C73_range_refuted) and len2 = 0 divides by zero whenever a clique is found (C73_zero_refuted, C73_zero_undefined)."
 ],
 "C74": [
  "partial",
  "False: svd returns the third factor already transposed and _format_correspondence transposes it again (C74_refuted: a set matched with itself). For points with an exact motion the answer is right exactly if that factor is symmetric or all points coincide (C74_exact); with a symmetric factor it is the least-squares optimum (C74_best_partial). Always a rotation that sends centroid to centroid. Exact arithmetic in any ordered field; svd is a parameter assumed to return a valid decomposition; theta: C78."
 ],
 "C75": [
  "partial",
  "They agree, as do the graphs, if the conversion to float32 in MaskFilter changes neither the points nor the transformation and the percentage is positive (C75_agree_partial, C75_graph_partial). False otherwise: equal points of set 2 with percentage 0 (C75_same_points_refuted), integer coordinates of 25 bits (C75_float32_refuted). Exact rationals apart from that conversion."
 ],
 "C76": [
  "partial",
  "The sequences are the same for k >= 2 (C76_enumerate_partial), if the sums of weights are not rounded; the searches return maximum cliques (C76_search). False for k = 1 (C76_size_1_refuted)."
 ],
 "C77": [
  "partial",
  "False: after a yield of a clique of two or more vertices, building again and advancing is undefined (C77_stale_refuted, and C77_undefined for all objects, builders and iterators; C77_exact says when it stops instead); an ended iterator can start again (C77_ended_refuted). Proved: an unused iterator lists the new graph; an ended one stays ended while the graph does not grow. Iterators of Graph; NWGraph objects are not rebuilt."
 ],
 "C78": [
  "partial",
  "Proved: rotmat is the matrix of theta in the form tests/test_align.py uses (C78_matrix). False: as points are rows, rotmat turns them by -theta (C78_direction), so that theta, dx, dy do not send S1 to S2 (C78_refuted; C78_exact says when they do). A matrix rounded to an entry below -1 gets theta 0 instead of half a turn (C78_half_turn); whether numpy produces such a matrix is not modelled. Exact arithmetic; cos, sin, arccos are any functions with cos^2 + sin^2 = 1, even and odd, and arccos inverting cos on the half circle with sin >= 0."
 ],
 "C79": [
  "partial",
  "False: on a ring of five vertices the search with a time limit returns [1, 2], the other [1, 5] (C79_same_algorithm_refuted). Proved: they agree if the maximum clique is unique (C79_only_largest); otherwise, without the heuristic, which clique each returns (C79_recursion_first, C79_stack_first), so that each answer is determined by the edges (C79_same_answer). The first call on a fresh object; with the heuristic the answer also depends on the sorting function."
 ],
 "C80": [
  "partial",
  "False: the default bounds 1 and 65535 are those of Graph. Cliques that weigh less than 1 make the call raise (C80_light_refuted; C80_light for all graphs of which every clique weighs less), and the search stops at the first clique found of weight 65535 or more (C80_heavy_refuted). Proved: the answer is a clique of weight 1 or more, after any calls and for any weights, never [0] (C80_clique); fresh or reset, with non-negative weights, no clique of two or more vertices is heavier unless the answer weighs 65535 or more, and if the call raises none weighs more than 1 (C80_heaviest_partial). Sums of weights exactly representable."
 ],
 "C81": [
  "proved",
  "As C33 and C34 for NWGraph. Beyond the room (C81_abandon_refuted: two iterators left at triangles) the search reads out of bounds, and iterators advanced in turn miss cliques (C81_interleave_refuted). 'heaviest' and 'the same sequence' assume weights that are not negative and sums exactly representable, as in C38 and C58; 'heaviest' is meant as in C38. Standing condition: a graph with an edge (C12) and live storage (C13)."
 ],
 "C82": [
  "proved",
  "Everything except n_edges and whether construction reallocated, as C10. No program of searches, iterators, weights and exports other than to_edgelist tells the objects apart (C82_same_later). from_adjlist is not among the loaders: it reads past the end of the weights whenever it accepts its input (C36)."
 ],
 "C83": [
  "proved",
  "Judged from the program alone. A depth-first search with a time limit may or may not set it (C22, C23, C67) and is left open here. That search_done is True once the search has been completed is false (C83_completed_refuted)."
 ],
 "C84": [
  "partial",
  "false: any search of an edgeless NWGraph reads past the end of the memory (proved for all of them), and a loop does exactly if a vertex other than the first reaches the threshold"
 ],
 "C85": [
  "partial",
  "false with the default bounds, and with all weights negative vertex 0 is returned (both refuted); proved that at most one vertex is returned, and that the call raises if lb > 0 is above every weight"
 ],
 "C86": [
  "partial",
  "reset_search and the vertex queries dereference null (refuted); the other methods raise"
 ],
 "C87": [
  "partial",
  "False: the answer can be heavier than upper_bound (C87_upper_refuted), and as heavy as lower_bound (C87_lower_refuted) although other cliques of that weight make the call raise (C38_tight_bound_refuted). Proved for fresh or reset objects, non-negative weights with exactly representable sums, the depth-first search included: at least as heavy as lower_bound, and no clique of two or more vertices is heavier unless upper_bound is reached."
 ],
 "C88": [
  "proved",
  "The scratch buffer is read only where the current vertex wrote it, for every rounding and every history; std::sort on ties is the only freedom that may show, and only through the heuristic. Standing condition: a graph with an edge (C12) and live storage (C13)."
 ],
 "C89": [
  "proved",
  "Every run follows the same machine on sets of positions, whose end determines every word of the graph; std::sort on ties is the only freedom that may show, and only through the heuristic. Standing condition: a graph with an edge (C12) and live storage (C13)."
 ],
 "C90": [
  "partial",
  "false: a correspondence containing the match of the first elements is left out unless another of its matches has fewer neighbours, and IsoGraph.all_correspondences raises TypeError (both refuted); proved: exactly the others are listed, once each, from the metrics to the elements; for IsoGraph through the method of the base class. C90_indices_partial and C90_iterator_elements_partial are about the iterator with the lengths it was constructed with."
 ],
 "C91": [
  "proved",
  "For the clique and correspondence iterators of Graph and NWGraph and the wrapped iterators over elements; the premise that list(it) ends is C16, C29 and C40."
 ],
 "C92": [
  "partial",
  "Proved if the ends of the interval are exact, and for one epsilon with any rounding; false in floating-point arithmetic, where a larger epsilon can lower the upper end of the interval (refuted), unless the differences are exact."
 ],
 "C93": [
  "partial",
  "False as stated: three elements at distance 10 and three at distance 9.9 with epsilon 0.1 can all be matched and two are (refuted). Proved: the distances are within epsilon up to rounding or next to the interval, and no matching whose distances are inside the interval by more than the rounding is larger."
 ],
 "C94": [
  "partial",
  "Inherits the exceptions of C44 (one distance next to the interval on either side), C66 (control points outside the range of u64, here excluded) and C74 (rotmat is a rotation, not always the best one). Assumes symmetric distances, a graph with an edge (C12) and live storage (C13)."
 ],
 "C95": [
  "partial",
  "False: the alignment of a triangle with its image is found by get_correspondence but not listed, because it contains the match of the first points (refuted). Proved: what is listed is aligned (with the exceptions of C94) and listed once, and only alignments containing the match of the first points can be missing. C95_iterator_partial is about the iterator with the lengths it was constructed with."
 ],
 "C96": [
  "partial",
  "False for metrics (distances 6, 7, 8 and 6, 7, 10 with epsilon 1: 3 pairs one way, 2 the other) and for graphs (a path and a triangle: 3 and 2); both refuted. Proved: exactly true for conditions only, with equal sizes for any two transposed graphs with an edge (C12) and live storage (C13); for symmetric metrics up to distances next to the interval and equal distances at its ends (C44, C45); for graphs the common edges are the matches that keep edges and non-edges."
 ],
 "C97": [
  "partial",
  "The second half is false: the path is matched with the triangle (refuted; an edge of the second graph must be one of the first, not conversely). Proved: the equivalence, if the product has an edge (C12) and live storage (C13), one of the graphs has at most 65535 vertices (the default upper bound) and there is no time limit."
 ],
 "C98": [
  "partial",
  "First half proved (fresh objects with an edge and live storage, C12 and C13). Second half false: a clique is missing or listed depending on whether it contains vertex 1 (refuted, from C30). Proved: what is listed stays listed unless it contains the new vertex 1, and if vertex 1 keeps its number the lists agree exactly."
 ],
 "C99": [
  "partial",
  "First half proved (fresh objects with an edge and live storage), also that any number of new edges does not shrink the maximum. Second half false: the new edge can raise the degree of the one vertex that came before vertex 1 (refuted). Proved: a listed clique stays listed if it does not contain vertex 1 or if no other vertex of it is an end of the new edge."
 ],
 "C100": [
  "partial",
  "False if a distance changes by exactly epsilon, and in floating point if epsilon is lost in the subtraction: three equidistant elements matched with themselves give two pairs (both refuted). Proved if every distance changes by less than epsilon (exact interval ends), or by less with three units of 2^-53 to spare (rounded ends); the storage is live (C13)."
 ],
 "C101": [
  "partial",
  "every program that does not use the heuristic sees the same (C101_programs, C101_search, C101_list); with the heuristic and the depth-first search the weight is the same; refuted for the heuristic alone, which compares the number of candidates with a weight"
 ],
 "C102": [
  "partial",
  "the very same graph for every factor that rounding respects (any factor with exact numbers, powers of two with doubles) and a std::sort that only compares; refuted for doubles and the factor 3"
 ],
 "C103": [
  "partial",
  "proved for the depth-first search, with or without the heuristic, from graphs with an edge and non-negative weights with exact sums; the lighter side may be any clique any earlier call returned. Refuted for the heuristic alone (a raised weight makes it return a lighter clique) and for all_cliques (a triangle is no longer listed when one of its weights is raised), and the number of cliques it lists changes with the numbers of the vertices"
 ],
 "C104": [
  "partial",
  "the same clique without the heuristic (both depth-first searches of Graph; NWGraph if no new vertex outweighs every old one with its later neighbours, refuted otherwise), one of the same size or weight with it; the same sequence of cliques of two or more vertices. Refuted for all_cliques(1), which lists the new vertices. The heuristic of Graph alone gives a clique of the same size if std::sort does the same in both (C104_heuristic_partial; missing: that it is the same clique); that of NWGraph alone can give a much lighter one (C104_weighted_heuristic_refuted). Graphs with an edge (C12) and live storage (C13)"
 ],
 "C105": [
  "partial",
  "matrices without further conditions; adjacency lists if from_adjlist is told the number of edges, which n_edges is not if an edge was given twice (refuted for n_edges); edge lists if n_edges is right (C06, C07). Missing: NWGraph.from_adjlist, which is undefined (C36), and whether the copy's bitsets dangle exactly if those of the first object do (C13)"
 ],
 "C106": [
  "proved",
  "the answer has to have two or more vertices (C84 and C86 are about the other cases); refuted with the heuristic. Graphs with an edge (C12), live storage (C13), weights that are not negative and exact sums (C38)"
 ],
 "C107": [
  "proved",
  "A version of get_max_clique whose call stack has room for D nested calls gives the same result as get_max_clique if no clique has more than D vertices. For graphs with an edge (C12) and live storage (C13). C107_needed: without the heuristic, on a new object, room for fewer calls than the answer has vertices is not enough."
 ],
 "C108": [
  "partial",
  "Graph: proved for use_dfs; with the heuristic alone it is false (C108_heuristic_refuted). C108_weight_partial needs non-negative weights with exact sums and answers of two vertices or more, like C38. The searches need an edge in each graph (C12). C108_complete is a way around the gap of C30."
 ],
 "C109": [
  "partial",
  "Graph: proved. C109_weight_partial needs non-negative weights with exact sums and answers of two vertices or more, like C38, and no vertex without neighbours in the two graphs: the heaviest clique may use such a vertex, which NWGraph does not return alone. The searches need an edge in each graph (C12)."
 ],
 "C110": [
  "proved",
  "For graphs with an edge (C12); all_cliques on a new object. Standing condition: live storage (C13)."
 ],
 "C111": [
  "partial",
  "Proved for both functions after any history of a graph with an edge (C12) and live storage (C13). The last sentence is false: the number counts the vertex itself, vertices without a later neighbour are left out, and the weight printed is the bound of the vertex (C111_edges_refuted, C111_every_vertex_refuted, C111_weight_refuted). How std::cout and std::cerr mix is not modelled."
 ],
 "C112": [
  "partial",
  "False as stated (C112_greedy_refuted). Proved: the answer is at most one vertex smaller, and only where the greedy choice takes all later neighbours of v (graph with an edge, live storage; the lower bound must have been met, otherwise the call raises)."
 ]
}