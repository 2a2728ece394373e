{"id": "C01", "title": "from_edgelist builds the graph the list denotes", "statement": "After G = Graph.from_edgelist(L, n) with all endpoints in 1..n, for every vertex v in 1..n, _vertex_neighbors(v) is exactly { u != v : (u,v) in L or (v,u) in L }: order, orientation, repetition and self-loops in L do not matter, and n_vertices = n.", "quantifier": "all n, all finite edge lists L over 1..n, all v", "why_tests_cant": "unbounded inputs; the in-place radix/insertion sort, de-duplication and offset computation behave differently per size class (>32 entries per bin, word boundaries), so examples cover only a few shapes", "anchors": ["src/cliquematch/core/pygraph.cpp:from_edgelist", "src/cliquematch/detail/graph/graph.cpp:graph::graph", "src/cliquematch/detail/utils.cpp:clean_edges", "src/cliquematch/detail/graph/graph.cpp:graph::vertex_data"]}
{"id": "C02", "title": "from_edgelist rejects exactly the invalid lists", "statement": "Graph.from_edgelist(L, n) raises iff some row of L names vertex 0 or a vertex > n; otherwise it returns a graph and reading/building never accesses memory out of bounds.", "quantifier": "all n, all edge lists", "why_tests_cant": "absence of a crash and absence of a wrongly accepted row for every list is a universally quantified claim", "anchors": ["src/cliquematch/core/pygraph.cpp:from_edgelist"]}
{"id": "C03", "title": "from_matrix builds the symmetric closure", "statement": "Graph.from_matrix(M) raises iff M is not square; otherwise v is a neighbour of u iff u != v and (M[u-1][v-1] or M[v-1][u-1]).", "quantifier": "all boolean matrices", "why_tests_cant": "2^(n^2) matrices for every n", "anchors": ["src/cliquematch/core/pygraph.cpp:from_adj_matrix"]}
{"id": "C04", "title": "from_adjlist accepts exactly the well-formed adjacency lists and reproduces them", "statement": "Graph.from_adjlist(n, m, A) succeeds iff A[0] is empty, len(A) = n+1, every member of A[i] is in 1..n, differs from i and lists i back, and floor(sum |A[i]| / 2) = m; then _vertex_neighbors(i) = A[i].", "quantifier": "all n, m, A", "why_tests_cant": "iff over all nested set structures", "anchors": ["src/cliquematch/core/pygraph.cpp:from_adj_list"]}
{"id": "C05", "title": "to_adjlist and to_matrix report exactly the edges of the graph", "statement": "For a graph made by any loader with vertices 1..n, to_adjlist()[v] = _vertex_neighbors(v) for v in 1..n with entry 0 empty, and to_matrix()[u-1][v-1] is True iff v is a neighbour of u; hence from_adjlist/to_adjlist and from_matrix/to_matrix round-trip.", "quantifier": "all loadable graphs", "why_tests_cant": "round trip for every graph", "anchors": ["src/cliquematch/core/pygraph.cpp:pygraph::to_adj_matrix", "src/cliquematch/core/pygraph.cpp:pygraph::to_adj_list", "src/cliquematch/detail/graph/graph.cpp:graph::send_data"]}
{"id": "C06", "title": "to_edgelist lists every undirected edge exactly once", "statement": "to_edgelist() returns n_edges rows; the rows are exactly the pairs (u,v) with u < v adjacent, each once, in lexicographic order, and no row is uninitialised or written out of bounds.", "quantifier": "all graphs obtained from any loader and any accepted input (including repeated edges, self-loops, asymmetric matrices)", "why_tests_cant": "depends on the agreement of a separately computed counter with the number of stored edges for every input", "anchors": ["src/cliquematch/core/pygraph.cpp:pygraph::to_edgelist", "src/cliquematch/detail/graph/graph.cpp:graph::send_data"]}
{"id": "C07", "title": "n_edges is the number of undirected edges", "statement": "For every loader and accepted input, n_edges equals the number of unordered adjacent vertex pairs of the loaded graph.", "quantifier": "all accepted inputs of from_edgelist, from_matrix, from_adjlist", "why_tests_cant": "the counter is computed from the raw input, before symmetrisation and de-duplication", "anchors": ["src/cliquematch/core/pygraph.cpp:from_edgelist", "src/cliquematch/core/pygraph.cpp:from_adj_matrix", "src/cliquematch/core/pygraph.cpp:from_adj_list"]}
{"id": "C08", "title": "to_file / from_file round trip", "statement": "For every loaded graph with a correct n_edges, parsing with from_file the characters written by to_file yields a graph with the same n_vertices, n_edges and neighbours.", "quantifier": "all graphs", "why_tests_cant": "all graphs and all digit lengths; involves formatting and stream-state semantics", "anchors": ["src/cliquematch/core/pygraph.cpp:pygraph::to_file", "src/cliquematch/detail/mmio.cpp:mmio4_reader"]}
{"id": "C09", "title": "from_file ignores edges that are not between vertices 1..n", "statement": "A line of a Matrix Market file whose endpoints are equal or not both in 1..n contributes no edge: the resulting graph is that of the remaining lines.", "quantifier": "all files", "why_tests_cant": "all files", "anchors": ["src/cliquematch/detail/mmio.cpp:mmio4_reader"]}
{"id": "C10", "title": "All loaders build the same object for the same graph", "statement": "If two accepted inputs (edge list, matrix, adjacency list, in any order/orientation/multiplicity) denote the same vertex count and adjacency, the loaded graphs have identical neighbour lists, degrees and search bounds, so every later query or search gives identical answers (as long as neither hits the reallocation of C13).", "quantifier": "all pairs of inputs", "why_tests_cant": "relational property over all pairs of inputs", "anchors": ["src/cliquematch/detail/graph/graph.cpp:graph::graph", "src/cliquematch/detail/utils.cpp:clean_edges"]}
{"id": "C11", "title": "Searching is memory-safe and leaves the scratch arena as it found it", "statement": "For a graph with at least one edge whose bitset storage was not reallocated during construction, every heuristic, stack, recursive or enumerating search (any bounds, any timeout behaviour) makes no out-of-bounds access, and get_max_clique leaves all scratch memory zeroed and fully released.", "quantifier": "all such graphs, all call arguments, all clock behaviours", "why_tests_cant": "absence of out-of-bounds access for every graph; sanitizers only see the executed inputs", "anchors": ["src/cliquematch/detail/graph/graph.h:load_memory,clear_memory", "src/cliquematch/detail/graph/graph.cpp:graph::set_bounds", "src/cliquematch/detail/graph/dfs_stack.cpp", "src/cliquematch/detail/graph/dfs_recurse.cpp", "src/cliquematch/detail/graph/heuristic.cpp", "src/cliquematch/detail/graph/enumerate.cpp"]}
{"id": "C12", "title": "Searching an edgeless graph is memory-safe and answers with a vertex of the graph", "statement": "get_max_clique() on a loaded graph with n >= 1 vertices and no edges returns [v] for some v in 1..n without undefined behaviour.", "quantifier": "all n >= 1", "why_tests_cant": "the failing arithmetic underflows only for this family", "anchors": ["src/cliquematch/detail/graph/graph.cpp:graph::set_bounds", "src/cliquematch/detail/graph/graph.h:load_memory"]}
{"id": "C13", "title": "Loading never leaves pointers into freed storage", "statement": "After any successful load, the per-vertex clique bitsets refer to live storage.", "quantifier": "all loadable graphs", "why_tests_cant": "depends on vector capacity growth for each input size", "anchors": ["src/cliquematch/detail/graph/graph.cpp:graph::graph", "src/cliquematch/detail/graph/graph.cpp:graph::set_bounds", "src/cliquematch/detail/graph/vertex.h:set_spos"]}
{"id": "C14", "title": "Everything get_max_clique returns is a clique", "statement": "Whatever sequence of get_max_clique (any bounds, flags, time limits, clock behaviour) and reset_search calls is made on a loaded graph with an edge, each returned list is strictly increasing, lists vertices of 1..n, and its members are pairwise adjacent.", "quantifier": "all graphs, all finite call histories, all clocks", "why_tests_cant": "unbounded histories and clock interleavings", "anchors": ["src/cliquematch/core/pygraph.cpp:pygraph::get_max_clique", "src/cliquematch/detail/graph/dfs_stack.cpp:StackDFS", "src/cliquematch/detail/graph/dfs_recurse.cpp:RecursionDFS", "src/cliquematch/detail/graph/heuristic.cpp:DegreeHeuristic"]}
{"id": "C15", "title": "get_max_clique() with default bounds returns a maximum clique", "statement": "On a freshly loaded graph with an edge, get_max_clique() with use_dfs and no time limit (and bounds that do not exclude the optimum) returns a clique such that no clique of the graph has more vertices.", "quantifier": "all graphs, both values of use_heuristic, all lower_bound < omega <= upper_bound", "why_tests_cant": "optimality for every graph", "anchors": ["src/cliquematch/core/pygraph.cpp:pygraph::get_max_clique", "src/cliquematch/detail/graph/dfs_stack.cpp:StackDFS::process_vertex", "src/cliquematch/detail/graph/dfs_stack.cpp:StackDFS::process_graph"]}
{"id": "C16", "title": "The search terminates", "statement": "For a loaded graph with an edge whose bitset storage was not reallocated during construction, every call of get_max_clique and every step of an all_cliques iterator returns after finitely many steps, whatever the clock, after any calls, resets and complete enumerations.", "quantifier": "all graphs, all arguments", "why_tests_cant": "termination", "anchors": ["src/cliquematch/detail/graph/dfs_stack.cpp", "src/cliquematch/detail/graph/dfs_recurse.cpp", "src/cliquematch/detail/graph/enumerate.cpp"]}
{"id": "C17", "title": "A timed search whose clock never expires is as good as an untimed one", "statement": "If the elapsed time never exceeds time_limit, get_max_clique(time_limit=t) on a fresh graph returns a clique of the same size as the untimed call, and search_done is True.", "quantifier": "all graphs", "why_tests_cant": "two different algorithms (recursive vs explicit stack) agree on all graphs", "anchors": ["src/cliquematch/detail/graph/dfs_recurse.cpp:RecursionDFS", "src/cliquematch/detail/graph/dfs_stack.cpp:StackDFS", "src/cliquematch/detail/graph/clique.cpp:find_max_cliques"]}
{"id": "C18", "title": "lower_bound contract", "statement": "On a fresh graph with an edge, an untimed get_max_clique(lower_bound=L) with upper_bound not binding raises iff the graph has no clique larger than L (i.e. the bound is exclusive as in the error message (L, U]), and otherwise returns a maximum clique.", "quantifier": "all graphs, all L", "why_tests_cant": "iff over all graphs and bounds", "anchors": ["src/cliquematch/core/pygraph.cpp:pygraph::get_max_clique"]}
{"id": "C19", "title": "upper_bound contract", "statement": "get_max_clique(upper_bound=U) never returns a clique with more than U vertices, and returns one with at least min(U, omega) vertices.", "quantifier": "all graphs, all U", "why_tests_cant": "all graphs and bounds", "anchors": ["src/cliquematch/core/pygraph.cpp:pygraph::get_max_clique", "src/cliquematch/detail/graph/dfs_stack.cpp:StackDFS::process_vertex"]}
{"id": "C20", "title": "Repeating get_max_clique does not change the answer", "statement": "After an untimed get_max_clique call has returned a clique, calling it again with the same arguments returns a clique of the same size.", "quantifier": "all graphs, arguments", "why_tests_cant": "history property", "anchors": ["src/cliquematch/core/pygraph.cpp:pygraph::get_max_clique"]}
{"id": "C21", "title": "reset_search restores the search", "statement": "After any history of untimed get_max_clique calls and reset_search, an untimed get_max_clique() with default bounds returns a maximum clique.", "quantifier": "all graphs, all histories", "why_tests_cant": "history property", "anchors": ["src/cliquematch/core/pygraph.cpp:pygraph::reset_search"]}
{"id": "C22", "title": "continue_search loop finds a maximum clique", "statement": "If get_max_clique(time_limit=t, continue_search=True) is called until search_done is True, the last returned clique is a maximum clique.", "quantifier": "all graphs, all clocks", "why_tests_cant": "depends on where the clock expires", "anchors": ["src/cliquematch/core/pygraph.cpp:pygraph::get_max_clique", "src/cliquematch/detail/graph/dfs_recurse.cpp:RecursionDFS::process_graph"]}
{"id": "C23", "title": "search_done is True only if every vertex was searched", "statement": "search_done becomes True only when the depth-first search has considered every vertex of the graph as a root.", "quantifier": "all graphs, all clocks", "why_tests_cant": "depends on where the clock expires", "anchors": ["src/cliquematch/core/pygraph.cpp:pygraph::get_max_clique"]}
{"id": "C24", "title": "use_heuristic=False with use_dfs=False raises", "statement": "As documented, get_max_clique(use_heuristic=False, use_dfs=False) on a fresh graph raises RuntimeError.", "quantifier": "all graphs, lower bounds", "why_tests_cant": "all graphs", "anchors": ["src/cliquematch/core/pygraph.cpp:pygraph::get_max_clique", "docs/source/user.rst"]}
{"id": "C25", "title": "repr agrees with the search_done attribute", "statement": "The search_done value printed by repr(G) equals G.search_done.", "quantifier": "all reachable objects", "why_tests_cant": "all reachable states", "anchors": ["src/cliquematch/core/pygraph.cpp:pygraph::showdata"]}
{"id": "C26", "title": "The heuristic alone is sound and never worsens the incumbent", "statement": "get_max_clique(use_dfs=False) on a fresh graph returns a clique whose size is at most omega and, if it succeeds with lower_bound L >= 2, more than L; running the heuristic before the depth-first search never changes the size of the untimed result; whatever order std::sort leaves equal-degree neighbours in.", "quantifier": "all graphs, all tie orders", "why_tests_cant": "all graphs and unspecified sort orders", "anchors": ["src/cliquematch/detail/graph/heuristic.cpp:DegreeHeuristic"]}
{"id": "C27", "title": "Methods on an unloaded Graph raise", "statement": "On Graph(), get_max_clique, to_edgelist, to_matrix, to_adjlist, all_cliques and reset_search raise RuntimeError.", "quantifier": "all argument values", "why_tests_cant": "all arguments", "anchors": ["src/cliquematch/core/pygraph.cpp:pygraph::check_loaded", "src/cliquematch/core/pygraph.cpp:pygraph::reset_search", "src/cliquematch/core/pyiterator.h"]}
{"id": "C28", "title": "all_cliques(k) yields only cliques with exactly k vertices", "statement": "Every list produced by iterating all_cliques(k) on a loaded graph (iterated alone) is a strictly increasing list of k pairwise adjacent vertices of 1..n.", "quantifier": "all graphs, k, prefix lengths", "why_tests_cant": "all graphs", "anchors": ["src/cliquematch/detail/graph/enumerate.cpp:CliqueEnumerator", "src/cliquematch/core/pyiterator.cpp:CliqueIterator::next_clique"]}
{"id": "C29", "title": "all_cliques(k) never repeats a clique", "statement": "Iterating all_cliques(k) to exhaustion yields pairwise different vertex sets.", "quantifier": "all graphs, k", "why_tests_cant": "all graphs", "anchors": ["src/cliquematch/detail/graph/enumerate.cpp:CliqueEnumerator"]}
{"id": "C30", "title": "all_cliques(k) is complete", "statement": "Iterating all_cliques(k) on a freshly loaded graph yields every clique with k vertices.", "quantifier": "all graphs, k >= 2", "why_tests_cant": "all graphs", "anchors": ["src/cliquematch/detail/graph/enumerate.cpp:CliqueEnumerator", "src/cliquematch/detail/graph/dfs.h:CliqueEnumerator"]}
{"id": "C31", "title": "all_cliques(0) is empty and all_cliques(1) yields every vertex once, in order", "statement": "list(all_cliques(0)) == [] and list(all_cliques(1)) == [[1],...,[n]].", "quantifier": "all loaded graphs", "why_tests_cant": "all graphs", "anchors": ["src/cliquematch/detail/graph/enumerate.cpp:CliqueEnumerator::process_graph"]}
{"id": "C32", "title": "Enumerating cliques does not change what get_max_clique returns", "statement": "get_max_clique() returns a maximum clique also after all_cliques(k) has been iterated on the same graph.", "quantifier": "all graphs, k", "why_tests_cant": "history property", "anchors": ["src/cliquematch/detail/graph/enumerate.cpp", "src/cliquematch/core/pygraph.cpp:pygraph::get_max_clique"]}
{"id": "C33", "title": "An iterator may be abandoned", "statement": "Dropping an all_cliques iterator before exhaustion, any number of times, leaves the graph usable without undefined behaviour.", "quantifier": "all graphs, histories", "why_tests_cant": "needs many repetitions, depends on arena size", "anchors": ["src/cliquematch/detail/graph/dfs.h:CliqueEnumerator", "src/cliquematch/detail/graph/graph.h:load_memory"]}
{"id": "C34", "title": "Two iterators on the same graph do not interfere", "statement": "Interleaving two all_cliques iterators yields from each the sequence it would yield alone.", "quantifier": "all graphs, interleavings", "why_tests_cant": "all interleavings", "anchors": ["src/cliquematch/detail/graph/enumerate.cpp", "src/cliquematch/detail/graph/graph.h:clear_memory"]}
{"id": "C35", "title": "Searching before enumerating does not lose cliques", "statement": "After a completed untimed get_max_clique() with default bounds, all_cliques(k) yields the same cliques in the same order as on the fresh graph.", "quantifier": "all graphs, k", "why_tests_cant": "all graphs", "anchors": ["src/cliquematch/detail/graph/dfs_stack.cpp:mcs update", "src/cliquematch/detail/graph/enumerate.cpp:process_vertex"]}
{"id": "C36", "title": "NWGraph loaders attach weight w[i-1] to vertex i", "statement": "NWGraph.from_edgelist/from_matrix/from_adjlist with a weight vector w give _get_vertex_weights() == w and _vertex_neighbors(i) as for Graph.", "quantifier": "all inputs", "why_tests_cant": "all inputs", "anchors": ["src/cliquematch/core/pynwgraph.cpp:nw_from_edgelist", "src/cliquematch/core/pynwgraph.cpp:nw_from_adj_matrix", "src/cliquematch/core/pynwgraph.cpp:nw_from_adj_list"]}
{"id": "C37", "title": "NWGraph.get_max_clique returns a clique", "statement": "With non-negative weights, every list returned by NWGraph.get_max_clique (any bounds, flags, history of such calls and resets) is a strictly increasing list of pairwise adjacent vertices.", "quantifier": "all weighted graphs with an edge, histories", "why_tests_cant": "all graphs", "anchors": ["src/cliquematch/detail/nwgraph/nw_dfs.cpp", "src/cliquematch/detail/nwgraph/nw_heuristic.cpp", "src/cliquematch/core/pynwgraph.cpp:pynwgraph::get_max_clique"]}
{"id": "C38", "title": "NWGraph.get_max_clique returns a clique of maximum weight", "statement": "On a fresh weighted graph with non-negative weights, no clique (including single vertices) weighs more than the clique returned by NWGraph.get_max_clique() when the bounds do not exclude the optimum.", "quantifier": "all weighted graphs", "why_tests_cant": "all graphs and weights", "anchors": ["src/cliquematch/detail/nwgraph/nw_dfs.cpp:NWStackDFS"]}
{"id": "C39", "title": "get_clique_weight is the sum of the vertex weights", "statement": "get_clique_weight(c) equals the sum of w over the listed vertices for every list c over 1..n, if its partial sums are doubles.", "quantifier": "all lists", "why_tests_cant": "all lists", "anchors": ["src/cliquematch/detail/nwgraph/nwclique.cpp:get_clique_weight"]}
{"id": "C40", "title": "NWGraph.all_cliques(W) yields only cliques of weight at least W and no duplicates", "statement": "With weights whose sums are doubles, each list produced by NWGraph.all_cliques(W) is a clique with weight >= W, no clique is repeated, and every produced list is minimal: removing the last vertex added by the search drops the weight below W or leaves a single vertex.", "quantifier": "all weighted graphs, W", "why_tests_cant": "all graphs", "anchors": ["src/cliquematch/detail/nwgraph/nw_enumerate.cpp"]}
{"id": "C41", "title": "Correspondence indices are in range and decode the clique", "statement": "For n1,n2 >= 1 each vertex v in 1..n1*n2 decodes to exactly one index pair (i,j), i < n1, j < n2 with v = i*n2+j+1, and _get_correspondence returns the decoded pairs of the maximum clique in order.", "quantifier": "all sizes, all cliques", "why_tests_cant": "all sizes", "anchors": ["src/cliquematch/core/pygraph.cpp:pygraph::get_correspondence2"]}
{"id": "C42", "title": "Correspondences are one-to-one", "statement": "For every graph built by build_edges (with or without metric/condition) or iso_edges, each returned correspondence pairs every index of either set at most once.", "quantifier": "all point sets, metrics, conditions", "why_tests_cant": "all inputs, arbitrary user callbacks", "anchors": ["src/cliquematch/templates/ext_template.hpp", "src/cliquematch/detail/graph/graph.cpp:iso_edges"]}
{"id": "C43", "title": "build_edges keeps every pair of matches whose distances agree", "statement": "With symmetric metrics, (i,j) and (i',j') (i != i', j != j') are adjacent whenever |d1(i,i') - d2(j,j')| < epsilon (exact arithmetic).", "quantifier": "all sets of size >= 2, metrics, epsilon > 0, tie orders of std::sort", "why_tests_cant": "all distance tables", "anchors": ["src/cliquematch/templates/ext_template.hpp:edges_from_relsets", "src/cliquematch/templates/pair_dist.hpp:binary_find2"]}
{"id": "C44", "title": "build_edges adds only pairs of matches whose distances agree", "statement": "(i,j) and (i',j') are adjacent only if |d1(i,i') - d2(j,j')| <= epsilon.", "quantifier": "all sets, metrics, epsilon", "why_tests_cant": "all distance tables", "anchors": ["src/cliquematch/templates/ext_template.hpp:edges_from_relsets", "src/cliquematch/templates/pair_dist.hpp:binary_find2"]}
{"id": "C45", "title": "Matches with equal distances at the boundary are kept", "statement": "(i,j) and (i',j') are adjacent whenever |d1(i,i') - d2(j,j')| <= epsilon, including epsilon = 0 and repeated distances.", "quantifier": "all sets, metrics, epsilon", "why_tests_cant": "all distance tables", "anchors": ["src/cliquematch/templates/ext_template.hpp:edges_from_relsets", "src/cliquematch/templates/pair_dist.hpp:binary_find2"]}
{"id": "C46", "title": "build_edges with metric and condition never adds an edge the condition rejects", "statement": "Every edge added by build_edges between (i,j) and (i',j') satisfies the user condition for that pairing.", "quantifier": "all callbacks", "why_tests_cant": "all callbacks", "anchors": ["src/cliquematch/templates/ext_template.hpp:efr_condition"]}
{"id": "C47", "title": "build_edges_with_condition alone: adjacent iff the condition accepts the pairing", "statement": "After building with only a condition f, (i,j) and (i',j') with i < i', j != j' are adjacent iff f(S1,i,i',S2,j,j').", "quantifier": "all callbacks", "why_tests_cant": "all callbacks", "anchors": ["src/cliquematch/templates/ext_template.hpp:build_edges_condition_only"]}
{"id": "C48", "title": "Building from a one-element set is memory-safe", "statement": "build_edges on sets of sizes n1 >= 2 and n2 = 1 performs no out-of-bounds access.", "quantifier": "all n1", "why_tests_cant": "undefined behaviour may go unnoticed in a run", "anchors": ["src/cliquematch/templates/ext_template.hpp:edges_from_relsets", "src/cliquematch/templates/pair_dist.hpp:binary_find2"]}
{"id": "C49", "title": "IsoGraph adjacency", "statement": "In the graph built from (g1,g2), (i1,j1) and (i2,j2) are adjacent iff i1 != i2, j1 != j2 and (j1~j2 in g2 implies i1~i2 in g1).", "quantifier": "all pairs of graphs", "why_tests_cant": "all graphs", "anchors": ["src/cliquematch/detail/graph/graph.cpp:iso_edges", "src/cliquematch/ext/Isograph.cpp:build_edges"]}
{"id": "C50", "title": "IsoGraph correspondences are partial embeddings of maximum size", "statement": "The correspondence returned is an injective partial map from vertices of g2 to vertices of g1 sending edges to edges, and no such map has a larger domain (g1, g2 with >= 2 vertices).", "quantifier": "all pairs of graphs", "why_tests_cant": "all graphs", "anchors": ["src/cliquematch/detail/graph/graph.cpp:iso_edges", "src/cliquematch/wrappers/isograph.py"]}
{"id": "C51", "title": "IsoGraph.get_correspondence(return_indices=False) describes the matched subgraphs", "statement": "The dictionaries returned with return_indices=False list, for each matched vertex, its matched neighbours in its own graph.", "quantifier": "all correspondences", "why_tests_cant": "all correspondences", "anchors": ["src/cliquematch/wrappers/isograph.py:_format_correspondence"]}
{"id": "C52", "title": "Bitset operations implement finite sets", "statement": "On bitsets of any length: set/reset/toggle/test, count, next-set-position, the in-place intersection/union/symmetric difference/difference and get_subset agree with the corresponding operations on finite sets of positions, and do not touch memory outside the bitset.", "quantifier": "all lengths and contents", "why_tests_cant": "2^n contents per length; popcount uses SWAR arithmetic on 64-bit words", "anchors": ["src/cliquematch/detail/gbits.h:graphBits", "src/cliquematch/detail/gbits.cpp:graphBits,bitcount"]}
{"id": "C53", "title": "Bitset construction has no undefined shift", "statement": "Constructing a bitset of any length n performs only defined shifts.", "quantifier": "all n", "why_tests_cant": "UB is invisible at run time on x86", "anchors": ["src/cliquematch/detail/gbits.h:refer_from"]}
{"id": "C54", "title": "Adjacency test by binary search is exact and in bounds", "statement": "On a strictly increasing list of length N >= 1 the binary search reports FOUND exactly for members, returns the position, never reads outside the list and the position returned on failure is a safe resumption point for larger values.", "quantifier": "all sorted lists and values", "why_tests_cant": "all lists", "anchors": ["src/cliquematch/detail/utils.h:binary_find"]}
{"id": "C55", "title": "Edge cleaning sorts and removes duplicates", "statement": "For every list of pairs with entries at most n+1 (n+1 >= 1), clean_edges leaves exactly the distinct pairs, lexicographically increasing, and never reads or writes outside the arrays.", "quantifier": "all lists", "why_tests_cant": "all lists and all radix depths", "anchors": ["src/cliquematch/detail/utils.cpp:radixSort,insertionSort,modUnique,clean_edges"]}
{"id": "C56", "title": "Rebuilding a graph object resets its search", "statement": "After build_edges is called again on the same object, search_done is False and a continue_search call starts from the first vertex.", "quantifier": "all histories", "why_tests_cant": "history property", "anchors": ["src/cliquematch/core/pygraph.cpp:pygraph::load_graph"]}
{"id": "C57", "title": "from_file on an arbitrary text file returns a graph or raises", "statement": "For every readable file, from_file either returns a Graph with the declared numbers of vertices and edges or raises; it never has undefined behaviour.", "quantifier": "all files", "why_tests_cant": "stream-state semantics on malformed input; uninitialised values look plausible at run time", "anchors": ["src/cliquematch/core/pygraph.cpp:pygraph::from_file", "src/cliquematch/detail/mmio.cpp:mmio4_reader"]}
{"id": "C58", "title": "NWGraph.all_cliques(W) misses no heavy clique", "statement": "With non-negative weights, every clique of two or more vertices that weighs at least W contains a clique produced by NWGraph.all_cliques(W).", "quantifier": "all weighted graphs, W and earlier calls whose upper bounds exclude nothing", "why_tests_cant": "exponentially many cliques; pruning by weight sums", "anchors": ["src/cliquematch/detail/nwgraph/nw_enumerate.cpp"]}
{"id": "C59", "title": "No call changes the graph", "statement": "After any sequence of searches, resets and iterator steps, finished or not, successful or raising, vertex_neighbors, to_matrix, to_adjlist, to_edgelist, to_file (and for NWGraph the weights and clique weights) answer as before.", "quantifier": "all objects, environments, arguments and sequences of calls", "why_tests_cant": "history property; searches write in the same arrays as the graph", "anchors": ["src/cliquematch/core/pygraph.cpp", "src/cliquematch/core/pynwgraph.cpp", "src/cliquematch/detail/graph/graph.cpp", "src/cliquematch/detail/nwgraph/nwgraph.cpp"]}
{"id": "C60", "title": "NWGraph exporters describe the loaded graph", "statement": "to_adjlist, to_matrix and to_edgelist of a NWGraph return the adjacency it was loaded from.", "quantifier": "all weighted graphs", "why_tests_cant": "all graphs", "anchors": ["src/cliquematch/core/pynwgraph.cpp", "src/cliquematch/detail/nwgraph/nwgraph.cpp"]}
{"id": "C61", "title": "NWGraph correspondences decode cliques", "statement": "get_correspondence of a NWGraph returns index pairs that are the vertices of a clique with weight at least lower_bound, or raises because of the bounds; the items of all_correspondences decode distinct cliques; if adjacent vertices stand for different elements, no element is matched twice.", "quantifier": "all weighted graphs, bounds and histories", "why_tests_cant": "all graphs", "anchors": ["src/cliquematch/core/pynwgraph.cpp:pynwgraph::get_correspondence", "src/cliquematch/core/pyiterator.cpp:NWCorrespondenceIterator"]}
{"id": "C62", "title": "A finished iterator stays finished", "statement": "Once an iterator has raised StopIteration it raises it again on every later call, whatever happened to the graph in between, and changes nothing.", "quantifier": "all graphs, iterators and sequences of calls", "why_tests_cant": "history property", "anchors": ["src/cliquematch/core/pyiterator.cpp", "src/cliquematch/detail/graph/enumerate.cpp", "src/cliquematch/detail/nwgraph/nw_enumerate.cpp"]}
{"id": "C63", "title": "Asking a NWGraph again never gives a lighter clique", "statement": "Two get_max_clique calls in a row on the same NWGraph: the second answer is not lighter than the first.", "quantifier": "all weighted graphs, bounds, flags and earlier calls", "why_tests_cant": "history property", "anchors": ["src/cliquematch/core/pynwgraph.cpp:pynwgraph::get_max_clique", "src/cliquematch/detail/nwgraph/nw_heuristic.cpp"]}
{"id": "C64", "title": "The correspondence graphs use the metrics they are given", "statement": "A2AGraph, A2LGraph, L2AGraph and L2LGraph build their graph with the metrics passed to the constructor; a metric that is not passed is the Euclidean distance for an array, and otherwise an exception is raised; with use_cfunc_only the metrics play no part.", "quantifier": "all sets, metrics and symmetry flags", "why_tests_cant": "the choice is spread over Python constructors, argument lists, overloads and template defaults", "anchors": ["src/cliquematch/wrappers/_gen_graph.py", "src/cliquematch/wrappers/a2agraph.py", "src/cliquematch/wrappers/l2lgraph.py", "src/cliquematch/templates/wrap_template.hpp", "src/cliquematch/templates/ext_template.h"]}
{"id": "C65", "title": "A correspondence graph returns a largest set of mutually consistent matches", "statement": "After build_edges, get_correspondence with default bounds returns elements of the two sets, matched one to one, any two matches at distances within epsilon (or next to the interval, C44), and no one-to-one matching whose distances all differ by less than epsilon is larger; with a condition, among the matchings the condition accepts. all_correspondences returns such matchings of the requested size.", "quantifier": "all sets, metrics, conditions and epsilon", "why_tests_cant": "joins the builder, the clique search and the decoding; all inputs", "anchors": ["src/cliquematch/wrappers/_gen_graph.py", "src/cliquematch/templates/ext_template.hpp", "src/cliquematch/core/pygraph.cpp"]}
{"id": "C66", "title": "The mask filter of AlignGraph tests the alignment it claims to test", "statement": "Two matches pass the filter exactly if at least the given fraction of the control points lies inside the mask after the rotation, scaling and translation that takes the two points of set 2 to those of set 1; two vertices of the built graph are adjacent only if they pass.", "quantifier": "all points, control points, masks and percentages", "why_tests_cant": "points outside the image make float-to-integer conversions undefined", "anchors": ["src/cliquematch/ext/Aligngraph.cpp", "src/cliquematch/wrappers/aligngraph.py"]}
{"id": "C67", "title": "A continued search makes progress", "statement": "Each get_max_clique call with continue_search=True either finishes or moves the search on: the answer never gets smaller, the resume position never goes back, and while search_done is False some later call moves it on, so that repeating the call until search_done ends.", "quantifier": "all graphs, clocks, time limits and sequences of continued calls", "why_tests_cant": "liveness over a history of interrupted searches", "anchors": ["src/cliquematch/core/pygraph.cpp:pygraph::get_max_clique", "src/cliquematch/detail/graph/dfs_recurse.cpp", "src/cliquematch/detail/graph/dfs_stack.cpp"]}
{"id": "C68", "title": "all_cliques lists cliques in a fixed order", "statement": "An iterator of Graph.all_cliques yields cliques ordered by their vertex of least degree (the lowest one, for equal degrees), and cliques with the same such vertex in lexicographic order; NWGraph.all_cliques likewise, with the first vertex of its search order (weights whose sums are doubles). The order is total on cliques, so the list depends on nothing but the graph and the size.", "quantifier": "all graphs, sizes and earlier calls", "why_tests_cant": "invariant over a hand-written stack of candidate sets; loop invariants over all graphs", "anchors": ["src/cliquematch/detail/graph/enumerate.cpp:process_vertex", "src/cliquematch/detail/graph/enumerate.cpp:process_graph", "src/cliquematch/detail/nwgraph/nw_enumerate.cpp"]}
{"id": "C69", "title": "Rounding does not lose matches whose distances agree", "statement": "With distances and epsilon nonnegative finite doubles and the ends of the interval rounded to nearest, as the machine does, (i,j) and (i',j') are adjacent whenever |d1(i,i') - d2(j,j')| < epsilon.", "quantifier": "all sets, metrics, epsilon, tie orders of std::sort and ways to break ties in rounding", "why_tests_cant": "floating-point error analysis; all distance tables", "anchors": ["src/cliquematch/templates/ext_template.hpp:edges_from_relsets", "src/cliquematch/templates/ext_template.hpp:efr_condition", "src/cliquematch/templates/pair_dist.hpp:binary_find2"]}
{"id": "C70", "title": "Rounding adds no matches beyond those next to the interval", "statement": "Under the same conditions (i,j) and (i',j') are adjacent only if |d1(i,i') - d2(j,j')| <= epsilon up to 3 * 2^-53 * (d1(i,i') + epsilon), or no distance of set 2 outside that margin is closer to the interval on that side; on either side at most one pair is matched beyond the margin.", "quantifier": "all sets, symmetric metrics, epsilon, tie orders and rounding ties", "why_tests_cant": "floating-point error analysis; all distance tables", "anchors": ["src/cliquematch/templates/ext_template.hpp:edges_from_relsets", "src/cliquematch/templates/ext_template.hpp:efr_condition", "src/cliquematch/templates/pair_dist.hpp:binary_find2"]}
{"id": "C71", "title": "Searching before enumerating does not lose cliques of a NWGraph", "statement": "After any calls of get_max_clique and completed enumerations, NWGraph.all_cliques(W) yields the same cliques in the same order as on the freshly loaded graph.", "quantifier": "all graphs, weights, W, bounds and earlier calls", "why_tests_cant": "all graphs, and a history property: the bounds stored by a search are reused to prune", "anchors": ["src/cliquematch/detail/nwgraph/nw_dfs.cpp:129", "src/cliquematch/detail/nwgraph/nw_enumerate.cpp:13", "src/cliquematch/core/pynwgraph.cpp:get_max_clique"]}
{"id": "C72", "title": "Floating-point weights give the heaviest cliques", "statement": "With non-negative finite doubles as weights and sums rounded to nearest, get_max_clique returns a clique of maximum weight, all_cliques(W) lists cliques of weight at least W and every heavy clique contains one of them, and get_clique_weight(c) does not depend on the order of c and is the sum of the weights up to a factor (1 +- 2^-53)^|c|.", "quantifier": "all weighted graphs, finite double weights, ways to break ties in rounding", "why_tests_cant": "floating-point error in running sums that are added to and subtracted from; all graphs", "anchors": ["src/cliquematch/detail/nwgraph/nw_dfs.cpp:109", "src/cliquematch/detail/nwgraph/nw_dfs.cpp:149", "src/cliquematch/detail/nwgraph/nw_dfs.cpp:179", "src/cliquematch/detail/nwgraph/nw_enumerate.cpp", "src/cliquematch/detail/nwgraph/nwclique.cpp:get_clique_weight"]}
{"id": "C73", "title": "get_correspondence is safe for all lengths", "statement": "For every loaded graph and all lengths len1, len2, get_correspondence(len1, len2, ...) ends without undefined behaviour; the pairs (i, j) it returns satisfy i < len1 and j < len2, and the vertices i * len2 + j + 1 form a clique.", "quantifier": "all graphs, lengths, bounds, time limits and earlier calls", "why_tests_cant": "all graphs and call histories; the lengths are those of containers that may have changed since the graph was built", "anchors": ["src/cliquematch/core/pygraph.cpp:get_correspondence2", "src/cliquematch/core/pygraph.cpp:get_correspondence"]}
{"id": "C74", "title": "AlignGraph returns the motion that sends the matched points to their partners", "statement": "AlignGraph.get_correspondence(return_indices=False) returns a rotation matrix and (dx, dy) such that p * rotmat + (dx, dy) is the partner of p for every matched point p of S1 whenever some rotation and translation do that, and has the least sum of squared distances otherwise.", "quantifier": "all point sets over an ordered field, all matchings, all valid singular value decompositions", "why_tests_cant": "optimality over all rotations and translations; the singular value decomposition is not unique", "anchors": ["src/cliquematch/wrappers/aligngraph.py:119", "src/cliquematch/wrappers/aligngraph.py:get_correspondence"]}
{"id": "C75", "title": "MaskFilter and build_edges_with_filter decide alike", "statement": "For all points, control points, masks and percentages the Python condition MaskFilter returns what the filter of AlignGraph.build_edges_with_filter computes in C++, so that build_edges_with_condition(MaskFilter(...), False) and build_edges_with_filter(...) build the same graph.", "quantifier": "all point sets, index quadruples, control points, masks and percentages", "why_tests_cant": "equivalence of two implementations in different arithmetic, lifted through the construction of the graph", "anchors": ["src/cliquematch/wrappers/aligngraph.py:36", "src/cliquematch/ext/Aligngraph.cpp:filter_score", "src/cliquematch/ext/Aligngraph.cpp:build_edges_with_filter"]}
{"id": "C76", "title": "A NWGraph with equal weights behaves like the Graph", "statement": "If all weights of a NWGraph are equal and positive, its all_cliques with the weight of k vertices lists the same cliques in the same order as all_cliques(k) of the Graph with the same edges, also after searches and resets on either, and get_max_clique of the two returns cliques of the same, maximum size.", "quantifier": "all graphs with an edge, all positive weights, all sizes k, all earlier calls whose bounds exclude no clique", "why_tests_cant": "relates two separately written search engines with different orders, bounds and state", "anchors": ["src/cliquematch/detail/graph/enumerate.cpp", "src/cliquematch/detail/nwgraph/nw_enumerate.cpp", "src/cliquematch/core/pygraph.cpp:all_cliques", "src/cliquematch/core/pynwgraph.cpp:all_cliques"]}
{"id": "C77", "title": "Building a graph again does not invalidate its iterators", "statement": "When a correspondence graph is built again (build_edges and the other builders), an iterator created before remains usable: its next step yields a clique of the new graph or raises StopIteration, and an iterator that has ended stays ended.", "quantifier": "all builders and inputs, all iterators in any state, any calls and any number of rebuilds in between", "why_tests_cant": "lifetime of storage shared between objects; undefined behaviour need not show in a test", "anchors": ["src/cliquematch/core/pyiterator.cpp", "src/cliquematch/core/pyiterator.h:13", "src/cliquematch/core/pygraph.cpp:load_graph", "src/cliquematch/detail/graph/enumerate.cpp:88"]}
{"id": "C78", "title": "theta is the angle of the alignment", "statement": "The dictionary returned by AlignGraph.get_correspondence(return_indices=False) describes one transformation: rotmat is the matrix of theta ([[cos, -sin], [sin, cos]], points as rows), and turning the points of S1 by theta and shifting them by (dx, dy) does what rotmat and the shift do.", "quantifier": "all ordered fields, all sets of points, all valid decompositions, all functions cos, sin and arccos with the laws stated", "why_tests_cant": "the sign convention of an angle and the NaN branch depend on values a few random tests do not reach", "anchors": ["src/cliquematch/wrappers/aligngraph.py:139-150", "tests/test_align.py:35-55"]}
{"id": "C79", "title": "The two depth-first searches return the same clique", "statement": "dfs_stack.cpp says that dfs_recurse.cpp implements the same algorithm: get_max_clique with a time limit that does not run out and without a time limit return the same clique. Each search returns a clique determined by the edges alone: not by the order in which they were loaded, the bounds, or the order of evaluation.", "quantifier": "all graphs with an edge, all ways to load them, all bounds that exclude no clique, both searches", "why_tests_cant": "tie breaking among maximum cliques depends on the order of pruning and recording in two separately written searches", "anchors": ["src/cliquematch/detail/graph/dfs_stack.cpp:3", "src/cliquematch/detail/graph/dfs_recurse.cpp:3", "src/cliquematch/detail/graph/dfs_stack.cpp:process_vertex", "src/cliquematch/detail/graph/dfs_recurse.cpp:search_vertex", "src/cliquematch/detail/graph/graph.cpp:set_bounds"]}
{"id": "C80", "title": "NWGraph.get_max_clique() without arguments returns a heaviest clique", "statement": "Called without arguments on a NWGraph with non-negative weights that is fresh or has been reset, get_max_clique returns a clique such that no clique is heavier.", "quantifier": "all NWGraphs from from_edgelist and from_matrix with an edge, live storage, and weights whose sums are exactly representable; all weights and call histories for what is returned", "why_tests_cant": "the defaults lower_bound = 1 and upper_bound = 0xFFFF are copied from Graph, where they count vertices; here they are weights", "anchors": ["src/cliquematch/core/wrap_pygraph.cpp:81", "src/cliquematch/core/pynwgraph.cpp:get_max_clique", "src/cliquematch/detail/nwgraph/nw_dfs.cpp:process_graph"]}
{"id": "C81", "title": "Loops over NWGraph.all_cliques may be left and nested", "statement": "Inside loops over all_cliques, after loops left by break, and while only the innermost iterator is advanced, get_max_clique and all_cliques work without undefined behaviour: get_max_clique returns cliques (heaviest ones after reset_search), and every iterator returns the sequence it would return alone on the fresh graph (these two for weights that are not negative and whose sums are doubles). This needs room: the cliques that the unfinished iterators returned last are together not larger than a clique of the graph and 1, which is always so for one of them.", "quantifier": "all NWGraphs from from_edgelist and from_matrix with an edge and live storage, all roundings, all programs of nested loops with searches and resets inside; the sequence and the heaviest clique for non-negative weights whose sums are exactly representable and upper bounds that exclude no clique", "why_tests_cant": "an iterator keeps its frames in the scratch space of the graph, above those of the iterators that were started before; nothing checks that they are left as they were", "anchors": ["src/cliquematch/detail/nwgraph/nw_enumerate.cpp:process_graph", "src/cliquematch/core/pyiterator.cpp:NWCliqueIterator", "src/cliquematch/detail/nwgraph/nw_dfs.cpp:process_vertex", "src/cliquematch/detail/graph/graph.cpp:107-128"]}
{"id": "C82", "title": "All ways to load a NWGraph build the same object", "statement": "NWGraphs loaded from the same graph and weights by from_edgelist and from_matrix are the same object except for n_edges and for whether construction moved the storage: the same rows, weights, weighted degrees, bounds and start vertex; and any sequence of calls observes the same results on both.", "quantifier": "all graphs, weights and roundings; all programs of get_max_clique, get_correspondence, reset_search, all_cliques, all_correspondences, get_clique_weight, get_all_weights, vertex_neighbors, to_adj_matrix, to_adj_list and search_done in any order", "why_tests_cant": "the loaders fill, sort and deduplicate the edge list in different ways and reserve different amounts; the weighted degrees are sums in the order of the rows", "anchors": ["src/cliquematch/core/pynwgraph.cpp:nw_from_edgelist", "src/cliquematch/core/pynwgraph.cpp:nw_from_adj_matrix", "src/cliquematch/detail/nwgraph/nwgraph.cpp:nwgraph"]}
{"id": "C83", "title": "search_done tells which search was the last one", "statement": "After any sequence of calls, search_done is True if the last search was a depth-first search without time limit, and False if there was no search since loading or reset_search or the last one was without use_dfs (on a Graph such a search with continue_search leaves it as it was).", "quantifier": "all loaded Graphs and NWGraphs with at least one vertex, all programs that return", "why_tests_cant": "search_done is computed from a position that every search resets, and the iterators share the object with the searches", "anchors": ["src/cliquematch/core/pygraph.cpp:get_max_clique", "src/cliquematch/core/pynwgraph.cpp:get_max_clique", "src/cliquematch/core/pygraph.cpp:reset_search", "src/cliquematch/core/wrap_pygraph.cpp:19"]}
{"id": "C84", "title": "NWGraph without edges can be searched", "statement": "On an NWGraph with at least one vertex and no edges, get_max_clique and loops over all_cliques(T) are memory-safe.", "quantifier": "all vertex counts, weights, bounds, thresholds", "why_tests_cant": "all edgeless weighted graphs", "anchors": ["src/cliquematch/core/pynwgraph.cpp:pynwgraph::get_max_clique", "src/cliquematch/detail/nwgraph/nwgraph.cpp:nwgraph::find_max_cliques", "src/cliquematch/detail/nwgraph/nw_enumerate.cpp"]}
{"id": "C85", "title": "NWGraph: use_heuristic=False with use_dfs=False raises", "statement": "NWGraph.get_max_clique(use_heuristic=False, use_dfs=False) on a fresh graph raises RuntimeError and returns no vertex that does not exist.", "quantifier": "all weighted graphs, bounds", "why_tests_cant": "all weighted graphs", "anchors": ["src/cliquematch/core/pynwgraph.cpp:pynwgraph::get_max_clique"]}
{"id": "C86", "title": "Methods on an unloaded NWGraph raise", "statement": "On NWGraph(), get_max_clique, the exports, all_cliques, get_all_weights, get_clique_weight, reset_search and get_vertex_data raise RuntimeError.", "quantifier": "all argument values", "why_tests_cant": "all arguments", "anchors": ["src/cliquematch/core/pynwgraph.cpp:pynwgraph::check_loaded", "src/cliquematch/core/pynwgraph.cpp:pynwgraph::reset_search"]}
{"id": "C87", "title": "Bounds of NWGraph.get_max_clique", "statement": "On a fresh NWGraph get_max_clique(lower_bound=L, upper_bound=U) returns a clique of weight in (L, U], as the message of the exception says, and raises only if there is none.", "quantifier": "all weighted graphs, L, U", "why_tests_cant": "all weighted graphs and bounds", "anchors": ["src/cliquematch/core/pynwgraph.cpp:pynwgraph::get_max_clique", "docs/source/api.rst"]}
{"id": "C88", "title": "NWGraph results do not depend on uninitialised memory", "statement": "The searches of an NWGraph reserve storage without initialising it and construct states with arguments evaluated in an unspecified order; neither has an influence on what get_max_clique, get_correspondence and list(all_cliques(T)) return and leave behind.", "quantifier": "all NWGraphs with an edge and live storage, all weights, roundings, bounds, histories, contents of the reserved storage, orders of evaluation", "why_tests_cant": "uninitialised reads are invisible when the allocator returns zeroed pages", "anchors": ["src/cliquematch/detail/nwgraph/nw_dfs.cpp:process_graph", "src/cliquematch/detail/nwgraph/nw_dfs.cpp:process_vertex", "src/cliquematch/detail/nwgraph/nw_enumerate.cpp:load_vertex", "src/cliquematch/detail/nwgraph/nw_enumerate.cpp:process_graph"]}
{"id": "C89", "title": "Graph results do not depend on the order of evaluation", "statement": "The search state of a root is constructed from two bitsets whose allocations the compiler may order either way; get_max_clique, get_correspondence and list(all_cliques(k)) return and leave behind the same in both orders, even if every call of a program makes its own choice. In the middle of an enumeration the scratch memory does differ.", "quantifier": "all Graphs with an edge and live storage, all histories, bounds, clocks, options and sizes; all programs of searches, resets and enumerations", "why_tests_cant": "a compiler makes one choice, so tests see only one", "anchors": ["src/cliquematch/detail/graph/dfs_stack.cpp:process_vertex", "src/cliquematch/detail/graph/dfs_stack.cpp:process_graph", "src/cliquematch/detail/graph/enumerate.cpp:load_vertex", "src/cliquematch/detail/graph/enumerate.cpp:process_graph", "src/cliquematch/core/pygraph.cpp:get_max_clique"]}
{"id": "C90", "title": "all_correspondences(k) lists every correspondence once", "statement": "list(all_correspondences(k)) contains every set of k pairwise compatible matches exactly once, and nothing else; with return_indices=False it contains their elements; for IsoGraph these are the subgraphs of size k.", "quantifier": "all sets, metrics, conditions, graphs, sizes k, and calls made before", "why_tests_cant": "correspondences are decoded from cliques whose enumeration has special cases at the first vertex", "anchors": ["src/cliquematch/core/pyiterator.cpp:CorrespondenceIterator::next_clique", "src/cliquematch/core/pygraph.cpp:get_correspondence2", "src/cliquematch/wrappers/_gen_graph.py:all_correspondences", "src/cliquematch/wrappers/isograph.py:all_correspondences"]}
{"id": "C91", "title": "An iterator and its copies deliver one sequence", "statement": "iter(it) returns a copy of the iterator object; next(...) on it and its copies, in any order, delivers together the cliques (or correspondences) of list(it), each once and in order, and StopIteration afterwards, so that a for loop continues where next(it) stopped.", "quantifier": "all Graphs and NWGraphs, iterators in any state, programs of iter and next over any number of copies", "why_tests_cant": "the copies share the enumerator but are different Python objects", "anchors": ["src/cliquematch/core/pyiterator.cpp:init_iterators", "src/cliquematch/core/pyiterator.h:CliqueIterator", "src/cliquematch/core/pyiterator.h:NWCliqueIterator", "src/cliquematch/core/pyiterator.h:CorrespondenceIterator", "src/cliquematch/core/pyiterator.h:NWCorrespondenceIterator", "src/cliquematch/wrappers/_gen_graph.py:10"]}
{"id": "C92", "title": "A larger epsilon loses no edges", "statement": "Rebuilding a correspondence graph from the same sets with an epsilon that is not smaller, or with a condition function that accepts no less, keeps every edge, so the largest correspondence does not become smaller.", "quantifier": "all sets, metrics (symmetric or not), condition functions and pairs of epsilons; exact and rounded interval ends", "why_tests_cant": "the binary search may stop beside the interval or anywhere among equal distances, and the ends of the interval are rounded twice", "anchors": ["src/cliquematch/templates/ext_template.hpp:edges_from_relsets", "src/cliquematch/templates/ext_template.hpp:efr_condition", "src/cliquematch/templates/pair_dist.hpp:binary_find2"]}
{"id": "C93", "title": "In floating point, the elements returned are a largest matching of close distances", "statement": "With distances and epsilon that are doubles and the ends of the interval rounded to nearest, get_correspondence with default bounds returns elements matched one to one at distances within epsilon, and no one-to-one matching whose distances all differ by less than epsilon is larger; later searches return such matchings as well.", "quantifier": "all sets, symmetric metrics with double values, conditions, epsilon and roundings to nearest", "why_tests_cant": "the two roundings decide which pairs are matched at the ends of the interval, and one lost edge makes the matching smaller", "anchors": ["src/cliquematch/wrappers/_gen_graph.py", "src/cliquematch/templates/ext_template.hpp:edges_from_relsets", "src/cliquematch/templates/ext_template.hpp:efr_condition"]}
{"id": "C94", "title": "AlignGraph returns a largest set of matches that align the images", "statement": "After AlignGraph.build_edges_with_filter, get_correspondence with default bounds returns a one-to-one matching of the points at distances within epsilon such that, for any two matches, the similarity that takes the points of S2 to those of S1 keeps the given fraction of the control points inside the mask; no such matching is larger. With return_indices=False it returns the points of such a matching and a rotation matrix.", "quantifier": "all point sets, control points, masks, percentages and epsilon; all bounds and earlier searches for the dictionary", "why_tests_cant": "joins the filter, the builder, the clique search, the decoding and the Kabsch step", "anchors": ["src/cliquematch/wrappers/aligngraph.py:91", "src/cliquematch/wrappers/aligngraph.py:152", "src/cliquematch/ext/Aligngraph.cpp"]}
{"id": "C95", "title": "AlignGraph.all_correspondences lists every alignment of the size asked for", "statement": "After AlignGraph.build_edges_with_filter, list(all_correspondences(k, return_indices=False)) contains, once each, a dictionary for every set of k one-to-one matches whose distances agree within epsilon and of which any two define a similarity that keeps the given fraction of the control points inside the mask, and nothing else.", "quantifier": "all point sets, control points, masks, percentages, epsilon and k >= 2", "why_tests_cant": "joins the filter, the builder, the enumerator, the wrapped iterator and the Kabsch step; the enumerator never starts at vertex 1", "anchors": ["src/cliquematch/wrappers/_gen_graph.py:146", "src/cliquematch/wrappers/aligngraph.py:119", "src/cliquematch/wrappers/aligngraph.py:91", "src/cliquematch/ext/Aligngraph.cpp"]}
{"id": "C96", "title": "Exchanging the two sets exchanges the sides of all matches", "statement": "If the correspondence graph of (S1, S2) joins (i, j) to (i', j'), that of (S2, S1), built with the same epsilon and the condition with its arguments exchanged, joins (j, i) to (j', i'), and conversely; get_correspondence therefore returns equally many pairs. The same holds for IsoGraph(G1, G2) and IsoGraph(G2, G1).", "quantifier": "all sets, metrics, epsilons, conditions and graphs", "why_tests_cant": "relates two builds; the search in the sorted distances treats the two sets differently", "anchors": ["src/cliquematch/templates/ext_template.hpp:edges_from_relsets", "src/cliquematch/templates/ext_template.hpp:build_edges_condition_only", "src/cliquematch/ext/Isograph.cpp"]}
{"id": "C97", "title": "IsoGraph decides subgraph isomorphism", "statement": "IsoGraph(G1, G2).get_correspondence() matches all vertices of G2 exactly if G1 contains a copy of G2 (a one-to-one map of the vertices that sends edges to edges), and the matched vertices span isomorphic subgraphs.", "quantifier": "all graphs G1 and G2", "why_tests_cant": "needs the maximum over all embeddings, and an equivalence with an existential statement", "anchors": ["src/cliquematch/wrappers/isograph.py:8", "src/cliquematch/wrappers/isograph.py:41", "src/cliquematch/ext/Isograph.cpp"]}
{"id": "C98", "title": "Renumbering the vertices renumbers the answers", "statement": "If two Graphs differ only by the numbers of their vertices, get_max_clique returns cliques of the same size, and all_cliques(k) lists the same cliques up to the new numbers.", "quantifier": "all graphs and renumberings, k >= 2, orders of equal degrees, bounds that exclude no clique", "why_tests_cant": "n! renumberings; ties and the start vertex depend on the numbers", "anchors": ["src/cliquematch/core/pygraph.cpp:get_max_clique", "src/cliquematch/core/pyiterator.cpp", "src/cliquematch/detail/graph/enumerate.cpp"]}
{"id": "C99", "title": "Another edge takes nothing away", "statement": "If an edge is added to a Graph, get_max_clique returns a clique of the same size or one larger, and all_cliques(k) still lists every clique it listed before.", "quantifier": "all graphs and pairs of vertices, k >= 2, orders of equal degrees, bounds that exclude no clique", "why_tests_cant": "relates two runs whose orders of vertices differ", "anchors": ["src/cliquematch/core/pygraph.cpp:get_max_clique", "src/cliquematch/core/pyiterator.cpp", "src/cliquematch/detail/graph/enumerate.cpp"]}
{"id": "C100", "title": "A set contained in another is matched completely", "statement": "If the elements of S1 can be placed one to one among those of S2 so that no distance between two of them changes by more than epsilon (for example because S2 is S1 in another order), get_correspondence with default bounds returns all elements of S1.", "quantifier": "all sets of two or more elements, symmetric metrics, epsilon and placements", "why_tests_cant": "only the best of exponentially many matchings is complete", "anchors": ["src/cliquematch/wrappers/_gen_graph.py", "src/cliquematch/templates/ext_template.hpp:edges_from_relsets", "src/cliquematch/templates/pair_dist.hpp:binary_find2"]}
{"id": "C101", "title": "The unit of the weights does not matter", "statement": "Multiplying all weights of a NWGraph and all weight bounds passed to it by the same positive number changes neither the cliques returned by get_max_clique nor those listed by all_cliques; reported weights are multiplied by it.", "quantifier": "all loaders, weights, bounds, factors that rounding respects (powers of two for doubles) and programs that call one object", "why_tests_cant": "every comparison in construction, search and enumeration must compare weights with weights", "anchors": ["src/cliquematch/detail/nwgraph/nwgraph.cpp", "src/cliquematch/detail/nwgraph/nw_dfs.cpp", "src/cliquematch/detail/nwgraph/nw_enumerate.cpp", "src/cliquematch/detail/nwgraph/nw_heuristic.cpp", "src/cliquematch/core/pynwgraph.cpp:get_max_clique"]}
{"id": "C102", "title": "The unit of the distances does not matter", "statement": "Multiplying all distances and epsilon by the same positive number changes neither the correspondence graph that build_edges and build_edges_with_condition make nor the matches found in it.", "quantifier": "all sets, metrics, symmetry flags, conditions, epsilon and factors; also the Euclidean default metric", "why_tests_cant": "interval ends are rounded sums; the search among the distances of the second set compares rounded with unrounded numbers", "anchors": ["src/cliquematch/templates/pair_dist.hpp:binary_find2", "src/cliquematch/templates/relset.hpp:fill_dists", "src/cliquematch/templates/ext_template.hpp:edges_from_relsets", "src/cliquematch/templates/ext_template.hpp:efr_condition", "src/cliquematch/wrappers/_gen_graph.py"]}
{"id": "C103", "title": "The weight of the heaviest clique grows with the graph", "statement": "Adding vertices or edges to a NWGraph or raising weights never lowers the weight of the clique get_max_clique returns, and renumbering the vertices does not change it; a clique that all_cliques(T) listed is still listed.", "quantifier": "all pairs of graphs one of which contains the other, loaders, non-negative weights with exact sums, bounds, earlier calls and contents of uninitialised memory", "why_tests_cant": "loading sorts the vertices and prunes with running bounds that change as a whole when one weight changes", "anchors": ["src/cliquematch/detail/nwgraph/nwgraph.cpp", "src/cliquematch/detail/nwgraph/nw_dfs.cpp", "src/cliquematch/detail/nwgraph/nw_enumerate.cpp", "src/cliquematch/detail/nwgraph/nw_heuristic.cpp", "src/cliquematch/core/pynwgraph.cpp:get_max_clique"]}
{"id": "C104", "title": "Vertices without neighbours do not matter", "statement": "Adding vertices without neighbours changes neither the clique that get_max_clique returns nor the sequence that all_cliques yields, for Graph and for NWGraph.", "quantifier": "all loaders, numbers of new vertices, weights of the new vertices, bounds, with and without a time limit", "why_tests_cant": "the number of vertices enters the order of the search, the storage layout and the fuel of every loop", "anchors": ["src/cliquematch/detail/graph/graph.cpp:set_bounds", "src/cliquematch/detail/graph/dfs_recurse.cpp", "src/cliquematch/detail/graph/dfs_stack.cpp", "src/cliquematch/detail/graph/enumerate.cpp", "src/cliquematch/detail/nwgraph/nw_dfs.cpp", "src/cliquematch/detail/nwgraph/nw_enumerate.cpp"]}
{"id": "C105", "title": "Exporting and loading again gives the same object", "statement": "After any calls, loading what to_matrix, to_adjlist or to_edgelist returns (for NWGraph with the weights that are read back) gives an object for the same graph, with the right n_edges, that no program can tell from the first one.", "quantifier": "all loaders, any searches, resets and iterator steps in between; any later program", "why_tests_cant": "the three formats use different code on the way out and in, the edge count takes a path of its own (C07)", "anchors": ["src/cliquematch/detail/graph/graph.cpp", "src/cliquematch/core/pygraph.cpp:to_matrix", "src/cliquematch/core/pygraph.cpp:to_adjlist", "src/cliquematch/core/pygraph.cpp:to_edgelist", "src/cliquematch/core/pynwgraph.cpp:to_matrix", "src/cliquematch/core/pynwgraph.cpp:to_edgelist"]}
{"id": "C106", "title": "Which of several heaviest cliques NWGraph returns", "statement": "Without the heuristic, get_max_clique of a fresh NWGraph, with weights that are not negative and whose sums are doubles, returns, if its answer has two or more vertices, the first heaviest clique in one fixed order: cliques built from the vertex whose later neighbours weigh most, then from vertex 1, 2, ..., each group in lexicographic order. The answer is a function of the edges and the weights.", "quantifier": "all loaders, rounding that keeps the sums, weights that are not negative, bounds above all cliques, any behaviour of std::sort and of the evaluation order", "why_tests_cant": "ties are broken by the order in which the stack is worked off, and pruning removes cliques of equal weight", "anchors": ["src/cliquematch/detail/nwgraph/nw_dfs.cpp", "src/cliquematch/detail/nwgraph/nwgraph.cpp:set_bounds", "src/cliquematch/core/pynwgraph.cpp:get_max_clique"]}
{"id": "C107", "title": "The recursion of the timed search is no deeper than a largest clique", "statement": "A get_max_clique with a time limit never has more nested calls of search_vertex on its call stack than a largest clique has vertices (graphs with an edge, bitset storage not reallocated during construction).", "quantifier": "all graphs with an edge, loaders, earlier calls, bounds, time limits and options", "why_tests_cant": "the recursion is not guarded by a counter; each level must be shown to extend a clique of the graph although the candidate sets are only bit masks in shared storage", "anchors": ["src/cliquematch/detail/graph/dfs_recurse.cpp:search_vertex", "src/cliquematch/detail/graph/clique.cpp", "src/cliquematch/core/pygraph.cpp:get_max_clique"]}
{"id": "C108", "title": "Two graphs side by side", "statement": "For a graph that consists of two others without edges between them, get_max_clique with use_dfs finds a clique as large (NWGraph: as heavy) as the better of the two answers, and all_cliques(k) (NWGraph: all_cliques(T)) lists the cliques of the first, then all those of the second; behind a vertex without neighbours all_cliques(k) is complete.", "quantifier": "all pairs of graphs, loaders, sizes k of 2 and more, bounds, options, behaviours of std::sort", "why_tests_cant": "the numbers of the second graph's vertices change, and with them the search order, the bit positions and the special treatment of vertex 1", "anchors": ["src/cliquematch/detail/graph/dfs_recurse.cpp", "src/cliquematch/detail/graph/dfs_stack.cpp", "src/cliquematch/detail/graph/enumerate.cpp", "src/cliquematch/core/pygraph.cpp:all_cliques", "src/cliquematch/detail/nwgraph/nw_dfs.cpp", "src/cliquematch/detail/nwgraph/nw_enumerate.cpp"]}
{"id": "C109", "title": "Two graphs with all edges between them", "statement": "For a graph that consists of two others and all edges between them, get_max_clique finds a clique with as many vertices as the two answers together (NWGraph: as heavy as the two together, if every vertex has a neighbour in its own graph).", "quantifier": "all pairs of graphs, loaders, bounds, options, behaviours of std::sort", "why_tests_cant": "every search crosses from one graph into the other, on rows that hold all vertices of the other graph", "anchors": ["src/cliquematch/detail/graph/dfs_recurse.cpp", "src/cliquematch/detail/graph/dfs_stack.cpp", "src/cliquematch/detail/nwgraph/nw_dfs.cpp"]}
{"id": "C110", "title": "Colours bound the answers", "statement": "If the vertices can be coloured with k colours so that neighbours differ, no call ever returns more than k vertices (NWGraph: nor more weight than the heaviest vertices of all colours together), and all_cliques for a larger size lists nothing; if a graph can be mapped to another, neighbours to neighbours, no answer for it is larger than that for the other.", "quantifier": "all graphs, colourings, mappings, histories, arguments", "why_tests_cant": "an upper bound for everything the searches return, heuristic and interrupted ones included", "anchors": ["src/cliquematch/detail/graph/dfs_recurse.cpp", "src/cliquematch/detail/graph/dfs_stack.cpp", "src/cliquematch/detail/graph/heuristic.cpp", "src/cliquematch/detail/graph/enumerate.cpp", "src/cliquematch/detail/nwgraph/nw_dfs.cpp"]}
{"id": "C111", "title": "What the debugging output shows", "statement": "graph::disp and nwgraph::disp (not reachable from Python) end without reading out of range and leave the graph as it is; for the vertices they print, in increasing order, they show the vertex with its neighbours, and a clique of the graph that contains it; in a new graph they print the vertices with a neighbour that comes later in the search order (with weights: those that weigh more together with such neighbours). The number called \"edges\" is the number of neighbours; every vertex with a neighbour is printed; the weight printed for a clique is its weight.", "quantifier": "all graphs with an edge, loaders, histories of calls", "why_tests_cant": "they read the stored bit rows of every vertex, whatever searches and enumerations left in them", "anchors": ["src/cliquematch/detail/gbits.cpp:show", "src/cliquematch/detail/graph/vertex.cpp:disp", "src/cliquematch/detail/graph/graph.cpp:disp", "src/cliquematch/detail/nwgraph/wvertex.cpp:disp", "src/cliquematch/detail/nwgraph/nwgraph.cpp:disp"]}
{"id": "C112", "title": "The heuristic alone finds what a greedy choice finds", "statement": "get_max_clique(use_dfs=False) on a fresh graph, unless upper_bound stops it, returns a clique at least as large as the one obtained from any vertex v as follows: go through the neighbours of v that come later in the search order (more neighbours, or as many and a higher number), those with more neighbours first and equals in some order, and take each that is adjacent to all taken before.", "quantifier": "all graphs with an edge, vertices, orders of equals, bounds", "why_tests_cant": "the size left by the loop over all vertices with its cut-offs, not by one of them", "anchors": ["src/cliquematch/detail/graph/heuristic.cpp:process_graph,process_vertex", "src/cliquematch/core/pygraph.cpp:pygraph::get_max_clique"]}
