#!/usr/bin/env python3
"""Regenerates properties.jsonl from the table below (plain text source of truth)."""
import json, os
P = []
def p(id, title, statement, quantifier, why, anchors):
    P.append(dict(id=id, title=title, statement=statement, quantifier=quantifier,
                  why_tests_cant=why, anchors=anchors))

S = "src/cliquematch/"
G = S + "detail/graph/"
NW = S + "detail/nwgraph/"
PG = S + "core/pygraph.cpp"
PN = S + "core/pynwgraph.cpp"
IT = S + "core/pyiterator.cpp"
EX = S + "templates/ext_template.hpp"

# ---------------------------------------------------------------- loading
p("C01", "from_edgelist builds the graph the list denotes",
  "After G = Graph.from_edgelist(L, n) with all endpoints in 1..n, for every vertex v in 1..n, "
  "_vertex_neighbors(v) is exactly { u != v : (u,v) in L or (v,u) in L }: order, orientation, repetition and "
  "self-loops in L do not matter, and n_vertices = n.",
  "all n, all finite edge lists L over 1..n, all v",
  "unbounded inputs; the in-place radix/insertion sort, de-duplication and offset computation behave differently "
  "per size class (>32 entries per bin, word boundaries), so examples cover only a few shapes",
  [PG + ":from_edgelist", G + "graph.cpp:graph::graph", S + "detail/utils.cpp:clean_edges", G + "graph.cpp:graph::vertex_data"])
p("C02", "from_edgelist rejects exactly the invalid lists",
  "Graph.from_edgelist(L, n) raises iff some row of L names vertex 0 or a vertex > n; otherwise it returns a graph and "
  "reading/building never accesses memory out of bounds.",
  "all n, all edge lists",
  "absence of a crash and absence of a wrongly accepted row for every list is a universally quantified claim",
  [PG + ":from_edgelist"])
p("C03", "from_matrix builds the symmetric closure",
  "Graph.from_matrix(M) raises iff M is not square; otherwise v is a neighbour of u iff u != v and (M[u-1][v-1] or M[v-1][u-1]).",
  "all boolean matrices", "2^(n^2) matrices for every n", [PG + ":from_adj_matrix"])
p("C04", "from_adjlist accepts exactly the well-formed adjacency lists and reproduces them",
  "Graph.from_adjlist(n, m, A) succeeds iff A[0] is empty, len(A) = n+1, every member of A[i] is in 1..n, differs from i and "
  "lists i back, and floor(sum |A[i]| / 2) = m; then _vertex_neighbors(i) = A[i].",
  "all n, m, A", "iff over all nested set structures", [PG + ":from_adj_list"])
p("C05", "to_adjlist and to_matrix report exactly the edges of the graph",
  "For a graph made by any loader with vertices 1..n, to_adjlist()[v] = _vertex_neighbors(v) for v in 1..n with entry 0 empty, and "
  "to_matrix()[u-1][v-1] is True iff v is a neighbour of u; hence from_adjlist/to_adjlist and from_matrix/to_matrix round-trip.",
  "all loadable graphs", "round trip for every graph", [PG + ":pygraph::to_adj_matrix", PG + ":pygraph::to_adj_list", G + "graph.cpp:graph::send_data"])
p("C06", "to_edgelist lists every undirected edge exactly once",
  "to_edgelist() returns n_edges rows; the rows are exactly the pairs (u,v) with u < v adjacent, each once, in lexicographic order, and no row is uninitialised or written out of bounds.",
  "all graphs obtained from any loader and any accepted input (including repeated edges, self-loops, asymmetric matrices)",
  "depends on the agreement of a separately computed counter with the number of stored edges for every input",
  [PG + ":pygraph::to_edgelist", G + "graph.cpp:graph::send_data"])
p("C07", "n_edges is the number of undirected edges",
  "For every loader and accepted input, n_edges equals the number of unordered adjacent vertex pairs of the loaded graph.",
  "all accepted inputs of from_edgelist, from_matrix, from_adjlist",
  "the counter is computed from the raw input, before symmetrisation and de-duplication", [PG + ":from_edgelist", PG + ":from_adj_matrix", PG + ":from_adj_list"])
p("C08", "to_file / from_file round trip",
  "For every loaded graph with a correct n_edges, parsing with from_file the characters written by to_file yields a graph with the same n_vertices, n_edges and neighbours.",
  "all graphs", "all graphs and all digit lengths; involves formatting and stream-state semantics",
  [PG + ":pygraph::to_file", S + "detail/mmio.cpp:mmio4_reader"])
p("C09", "from_file ignores edges that are not between vertices 1..n",
  "A line of a Matrix Market file whose endpoints are equal or not both in 1..n contributes no edge: the resulting graph is that of the remaining lines.",
  "all files", "all files", [S + "detail/mmio.cpp:mmio4_reader"])
p("C10", "All loaders build the same object for the same graph",
  "If two accepted inputs (edge list, matrix, adjacency list, in any order/orientation/multiplicity) denote the same vertex count and adjacency, the loaded graphs have identical neighbour lists, degrees and search bounds, so every later query or search gives identical answers (as long as neither hits the reallocation of C13).",
  "all pairs of inputs", "relational property over all pairs of inputs", [G + "graph.cpp:graph::graph", S + "detail/utils.cpp:clean_edges"])

# ---------------------------------------------------------------- memory
p("C11", "Searching is memory-safe and leaves the scratch arena as it found it",
  "For a graph with at least one edge whose bitset storage was not reallocated during construction, every heuristic, stack, recursive or enumerating search (any bounds, any timeout behaviour) makes no out-of-bounds access, and get_max_clique leaves all scratch memory zeroed and fully released.",
  "all such graphs, all call arguments, all clock behaviours",
  "absence of out-of-bounds access for every graph; sanitizers only see the executed inputs",
  [G + "graph.h:load_memory,clear_memory", G + "graph.cpp:graph::set_bounds", G + "dfs_stack.cpp", G + "dfs_recurse.cpp", G + "heuristic.cpp", G + "enumerate.cpp"])
p("C12", "Searching an edgeless graph is memory-safe and answers with a vertex of the graph",
  "get_max_clique() on a loaded graph with n >= 1 vertices and no edges returns [v] for some v in 1..n without undefined behaviour.",
  "all n >= 1", "the failing arithmetic underflows only for this family", [G + "graph.cpp:graph::set_bounds", G + "graph.h:load_memory"])
p("C13", "Loading never leaves pointers into freed storage",
  "After any successful load, the per-vertex clique bitsets refer to live storage.",
  "all loadable graphs", "depends on vector capacity growth for each input size", [G + "graph.cpp:graph::graph", G + "graph.cpp:graph::set_bounds", G + "vertex.h:set_spos"])

# ---------------------------------------------------------------- search
p("C14", "Everything get_max_clique returns is a clique",
  "Whatever sequence of get_max_clique (any bounds, flags, time limits, clock behaviour) and reset_search calls is made on a loaded graph with an edge, each returned list is strictly increasing, lists vertices of 1..n, and its members are pairwise adjacent.",
  "all graphs, all finite call histories, all clocks", "unbounded histories and clock interleavings",
  [PG + ":pygraph::get_max_clique", G + "dfs_stack.cpp:StackDFS", G + "dfs_recurse.cpp:RecursionDFS", G + "heuristic.cpp:DegreeHeuristic"])
p("C15", "get_max_clique() with default bounds returns a maximum clique",
  "On a freshly loaded graph with an edge, get_max_clique() with use_dfs and no time limit (and bounds that do not exclude the optimum) returns a clique such that no clique of the graph has more vertices.",
  "all graphs, both values of use_heuristic, all lower_bound < omega <= upper_bound", "optimality for every graph",
  [PG + ":pygraph::get_max_clique", G + "dfs_stack.cpp:StackDFS::process_vertex", G + "dfs_stack.cpp:StackDFS::process_graph"])
p("C16", "The search terminates",
  "For a loaded graph with an edge whose bitset storage was not reallocated during construction, every call of get_max_clique and every step of an all_cliques iterator returns after finitely many steps, whatever the clock, after any calls, resets and complete enumerations.",
  "all graphs, all arguments", "termination", [G + "dfs_stack.cpp", G + "dfs_recurse.cpp", G + "enumerate.cpp"])
p("C17", "A timed search whose clock never expires is as good as an untimed one",
  "If the elapsed time never exceeds time_limit, get_max_clique(time_limit=t) on a fresh graph returns a clique of the same size as the untimed call, and search_done is True.",
  "all graphs", "two different algorithms (recursive vs explicit stack) agree on all graphs",
  [G + "dfs_recurse.cpp:RecursionDFS", G + "dfs_stack.cpp:StackDFS", G + "clique.cpp:find_max_cliques"])
p("C18", "lower_bound contract",
  "On a fresh graph with an edge, an untimed get_max_clique(lower_bound=L) with upper_bound not binding raises iff the graph has no clique larger than L (i.e. the bound is exclusive as in the error message (L, U]), and otherwise returns a maximum clique.",
  "all graphs, all L", "iff over all graphs and bounds", [PG + ":pygraph::get_max_clique"])
p("C19", "upper_bound contract",
  "get_max_clique(upper_bound=U) never returns a clique with more than U vertices, and returns one with at least min(U, omega) vertices.",
  "all graphs, all U", "all graphs and bounds", [PG + ":pygraph::get_max_clique", G + "dfs_stack.cpp:StackDFS::process_vertex"])
p("C20", "Repeating get_max_clique does not change the answer",
  "After an untimed get_max_clique call has returned a clique, calling it again with the same arguments returns a clique of the same size.",
  "all graphs, arguments", "history property", [PG + ":pygraph::get_max_clique"])
p("C21", "reset_search restores the search",
  "After any history of untimed get_max_clique calls and reset_search, an untimed get_max_clique() with default bounds returns a maximum clique.",
  "all graphs, all histories", "history property", [PG + ":pygraph::reset_search"])
p("C22", "continue_search loop finds a maximum clique",
  "If get_max_clique(time_limit=t, continue_search=True) is called until search_done is True, the last returned clique is a maximum clique.",
  "all graphs, all clocks", "depends on where the clock expires", [PG + ":pygraph::get_max_clique", G + "dfs_recurse.cpp:RecursionDFS::process_graph"])
p("C23", "search_done is True only if every vertex was searched",
  "search_done becomes True only when the depth-first search has considered every vertex of the graph as a root.",
  "all graphs, all clocks", "depends on where the clock expires", [PG + ":pygraph::get_max_clique"])
p("C24", "use_heuristic=False with use_dfs=False raises",
  "As documented, get_max_clique(use_heuristic=False, use_dfs=False) on a fresh graph raises RuntimeError.",
  "all graphs, lower bounds", "all graphs", [PG + ":pygraph::get_max_clique", "docs/source/user.rst"])
p("C25", "repr agrees with the search_done attribute",
  "The search_done value printed by repr(G) equals G.search_done.", "all reachable objects", "all reachable states", [PG + ":pygraph::showdata"])
p("C26", "The heuristic alone is sound and never worsens the incumbent",
  "get_max_clique(use_dfs=False) on a fresh graph returns a clique whose size is at most omega and, if it succeeds with lower_bound L >= 2, more than L; running the heuristic before the depth-first search never changes the size of the untimed result; whatever order std::sort leaves equal-degree neighbours in.",
  "all graphs, all tie orders", "all graphs and unspecified sort orders", [G + "heuristic.cpp:DegreeHeuristic"])
p("C27", "Methods on an unloaded Graph raise",
  "On Graph(), get_max_clique, to_edgelist, to_matrix, to_adjlist, all_cliques and reset_search raise RuntimeError.",
  "all argument values", "all arguments", [PG + ":pygraph::check_loaded", PG + ":pygraph::reset_search", S + "core/pyiterator.h"])

# ---------------------------------------------------------------- enumeration
p("C28", "all_cliques(k) yields only cliques with exactly k vertices",
  "Every list produced by iterating all_cliques(k) on a loaded graph (iterated alone) is a strictly increasing list of k pairwise adjacent vertices of 1..n.",
  "all graphs, k, prefix lengths", "all graphs", [G + "enumerate.cpp:CliqueEnumerator", IT + ":CliqueIterator::next_clique"])
p("C29", "all_cliques(k) never repeats a clique",
  "Iterating all_cliques(k) to exhaustion yields pairwise different vertex sets.",
  "all graphs, k", "all graphs", [G + "enumerate.cpp:CliqueEnumerator"])
p("C30", "all_cliques(k) is complete",
  "Iterating all_cliques(k) on a freshly loaded graph yields every clique with k vertices.",
  "all graphs, k >= 2", "all graphs", [G + "enumerate.cpp:CliqueEnumerator", G + "dfs.h:CliqueEnumerator"])
p("C31", "all_cliques(0) is empty and all_cliques(1) yields every vertex once, in order",
  "list(all_cliques(0)) == [] and list(all_cliques(1)) == [[1],...,[n]].", "all loaded graphs", "all graphs", [G + "enumerate.cpp:CliqueEnumerator::process_graph"])
p("C32", "Enumerating cliques does not change what get_max_clique returns",
  "get_max_clique() returns a maximum clique also after all_cliques(k) has been iterated on the same graph.",
  "all graphs, k", "history property", [G + "enumerate.cpp", PG + ":pygraph::get_max_clique"])
p("C33", "An iterator may be abandoned",
  "Dropping an all_cliques iterator before exhaustion, any number of times, leaves the graph usable without undefined behaviour.",
  "all graphs, histories", "needs many repetitions, depends on arena size", [G + "dfs.h:CliqueEnumerator", G + "graph.h:load_memory"])
p("C34", "Two iterators on the same graph do not interfere",
  "Interleaving two all_cliques iterators yields from each the sequence it would yield alone.",
  "all graphs, interleavings", "all interleavings", [G + "enumerate.cpp", G + "graph.h:clear_memory"])
p("C35", "Searching before enumerating does not lose cliques",
  "After a completed untimed get_max_clique() with default bounds, all_cliques(k) yields the same cliques in the same order as on the fresh graph.",
  "all graphs, k", "all graphs", [G + "dfs_stack.cpp:mcs update", G + "enumerate.cpp:process_vertex"])

# ---------------------------------------------------------------- weighted
p("C36", "NWGraph loaders attach weight w[i-1] to vertex i",
  "NWGraph.from_edgelist/from_matrix/from_adjlist with a weight vector w give _get_vertex_weights() == w and _vertex_neighbors(i) as for Graph.",
  "all inputs", "all inputs", [PN + ":nw_from_edgelist", PN + ":nw_from_adj_matrix", PN + ":nw_from_adj_list"])
p("C37", "NWGraph.get_max_clique returns a clique",
  "With non-negative weights, every list returned by NWGraph.get_max_clique (any bounds, flags, history of such calls and resets) is a strictly increasing list of pairwise adjacent vertices.",
  "all weighted graphs with an edge, histories", "all graphs", [NW + "nw_dfs.cpp", NW + "nw_heuristic.cpp", PN + ":pynwgraph::get_max_clique"])
p("C38", "NWGraph.get_max_clique returns a clique of maximum weight",
  "On a fresh weighted graph with non-negative weights, no clique (including single vertices) weighs more than the clique returned by NWGraph.get_max_clique() when the bounds do not exclude the optimum.",
  "all weighted graphs", "all graphs and weights", [NW + "nw_dfs.cpp:NWStackDFS"])
p("C39", "get_clique_weight is the sum of the vertex weights",
  "get_clique_weight(c) equals the sum of w over the listed vertices for every list c over 1..n, if its partial sums are doubles.",
  "all lists", "all lists", [NW + "nwclique.cpp:get_clique_weight"])
p("C40", "NWGraph.all_cliques(W) yields only cliques of weight at least W and no duplicates",
  "With weights whose sums are doubles, each list produced by NWGraph.all_cliques(W) is a clique with weight >= W, no clique is repeated, and every produced list is minimal: removing the last vertex added by the search drops the weight below W or leaves a single vertex.",
  "all weighted graphs, W", "all graphs", [NW + "nw_enumerate.cpp"])

# ---------------------------------------------------------------- correspondence
p("C41", "Correspondence indices are in range and decode the clique",
  "For n1,n2 >= 1 each vertex v in 1..n1*n2 decodes to exactly one index pair (i,j), i < n1, j < n2 with v = i*n2+j+1, and _get_correspondence returns the decoded pairs of the maximum clique in order.",
  "all sizes, all cliques", "all sizes", [PG + ":pygraph::get_correspondence2"])
p("C42", "Correspondences are one-to-one",
  "For every graph built by build_edges (with or without metric/condition) or iso_edges, each returned correspondence pairs every index of either set at most once.",
  "all point sets, metrics, conditions", "all inputs, arbitrary user callbacks", [EX, G + "graph.cpp:iso_edges"])
p("C43", "build_edges keeps every pair of matches whose distances agree",
  "With symmetric metrics, (i,j) and (i',j') (i != i', j != j') are adjacent whenever |d1(i,i') - d2(j,j')| < epsilon (exact arithmetic).",
  "all sets of size >= 2, metrics, epsilon > 0, tie orders of std::sort", "all distance tables", [EX + ":edges_from_relsets", S + "templates/pair_dist.hpp:binary_find2"])
p("C44", "build_edges adds only pairs of matches whose distances agree",
  "(i,j) and (i',j') are adjacent only if |d1(i,i') - d2(j,j')| <= epsilon.",
  "all sets, metrics, epsilon", "all distance tables", [EX + ":edges_from_relsets", S + "templates/pair_dist.hpp:binary_find2"])
p("C45", "Matches with equal distances at the boundary are kept",
  "(i,j) and (i',j') are adjacent whenever |d1(i,i') - d2(j,j')| <= epsilon, including epsilon = 0 and repeated distances.",
  "all sets, metrics, epsilon", "all distance tables", [EX + ":edges_from_relsets", S + "templates/pair_dist.hpp:binary_find2"])
p("C46", "build_edges with metric and condition never adds an edge the condition rejects",
  "Every edge added by build_edges between (i,j) and (i',j') satisfies the user condition for that pairing.",
  "all callbacks", "all callbacks", [EX + ":efr_condition"])
p("C47", "build_edges_with_condition alone: adjacent iff the condition accepts the pairing",
  "After building with only a condition f, (i,j) and (i',j') with i < i', j != j' are adjacent iff f(S1,i,i',S2,j,j').",
  "all callbacks", "all callbacks", [EX + ":build_edges_condition_only"])
p("C48", "Building from a one-element set is memory-safe",
  "build_edges on sets of sizes n1 >= 2 and n2 = 1 performs no out-of-bounds access.",
  "all n1", "undefined behaviour may go unnoticed in a run", [EX + ":edges_from_relsets", S + "templates/pair_dist.hpp:binary_find2"])
p("C49", "IsoGraph adjacency",
  "In the graph built from (g1,g2), (i1,j1) and (i2,j2) are adjacent iff i1 != i2, j1 != j2 and (j1~j2 in g2 implies i1~i2 in g1).",
  "all pairs of graphs", "all graphs", [G + "graph.cpp:iso_edges", S + "ext/Isograph.cpp:build_edges"])
p("C50", "IsoGraph correspondences are partial embeddings of maximum size",
  "The correspondence returned is an injective partial map from vertices of g2 to vertices of g1 sending edges to edges, and no such map has a larger domain (g1, g2 with >= 2 vertices).",
  "all pairs of graphs", "all graphs", [G + "graph.cpp:iso_edges", S + "wrappers/isograph.py"])
p("C51", "IsoGraph.get_correspondence(return_indices=False) describes the matched subgraphs",
  "The dictionaries returned with return_indices=False list, for each matched vertex, its matched neighbours in its own graph.",
  "all correspondences", "all correspondences", [S + "wrappers/isograph.py:_format_correspondence"])

# ---------------------------------------------------------------- primitives
p("C52", "Bitset operations implement finite sets",
  "On bitsets of any length: set/reset/toggle/test, count, next-set-position, the in-place intersection/union/symmetric difference/difference and get_subset agree with the corresponding operations on finite sets of positions, and do not touch memory outside the bitset.",
  "all lengths and contents", "2^n contents per length; popcount uses SWAR arithmetic on 64-bit words", [S + "detail/gbits.h:graphBits", S + "detail/gbits.cpp:graphBits,bitcount"])
p("C53", "Bitset construction has no undefined shift",
  "Constructing a bitset of any length n performs only defined shifts.", "all n", "UB is invisible at run time on x86", [S + "detail/gbits.h:refer_from"])
p("C54", "Adjacency test by binary search is exact and in bounds",
  "On a strictly increasing list of length N >= 1 the binary search reports FOUND exactly for members, returns the position, never reads outside the list and the position returned on failure is a safe resumption point for larger values.",
  "all sorted lists and values", "all lists", [S + "detail/utils.h:binary_find"])
p("C55", "Edge cleaning sorts and removes duplicates",
  "For every list of pairs with entries at most n+1 (n+1 >= 1), clean_edges leaves exactly the distinct pairs, lexicographically increasing, and never reads or writes outside the arrays.",
  "all lists", "all lists and all radix depths", [S + "detail/utils.cpp:radixSort,insertionSort,modUnique,clean_edges"])
p("C56", "Rebuilding a graph object resets its search",
  "After build_edges is called again on the same object, search_done is False and a continue_search call starts from the first vertex.",
  "all histories", "history property", [PG + ":pygraph::load_graph"])
p("C57", "from_file on an arbitrary text file returns a graph or raises",
  "For every readable file, from_file either returns a Graph with the declared numbers of vertices and edges or raises; it never has undefined behaviour.",
  "all files", "stream-state semantics on malformed input; uninitialised values look plausible at run time",
  [PG + ":pygraph::from_file", S + "detail/mmio.cpp:mmio4_reader"])
p("C58", "NWGraph.all_cliques(W) misses no heavy clique",
  "With non-negative weights, every clique of two or more vertices that weighs at least W contains a clique produced by NWGraph.all_cliques(W).",
  "all weighted graphs, W and earlier calls whose upper bounds exclude nothing", "exponentially many cliques; pruning by weight sums",
  [S + "detail/nwgraph/nw_enumerate.cpp"])

p("C59", "No call changes the graph",
  "After any sequence of searches, resets and iterator steps, finished or not, successful or raising, vertex_neighbors, to_matrix, to_adjlist, to_edgelist, to_file (and for NWGraph the weights and clique weights) answer as before.",
  "all objects, environments, arguments and sequences of calls", "history property; searches write in the same arrays as the graph",
  [PG, PN, S + "detail/graph/graph.cpp", S + "detail/nwgraph/nwgraph.cpp"])
p("C60", "NWGraph exporters describe the loaded graph",
  "to_adjlist, to_matrix and to_edgelist of a NWGraph return the adjacency it was loaded from.",
  "all weighted graphs", "all graphs", [PN, S + "detail/nwgraph/nwgraph.cpp"])
p("C61", "NWGraph correspondences decode cliques",
  "get_correspondence of a NWGraph returns index pairs that are the vertices of a clique with weight at least lower_bound, or raises because of the bounds; the items of all_correspondences decode distinct cliques; if adjacent vertices stand for different elements, no element is matched twice.",
  "all weighted graphs, bounds and histories", "all graphs", [PN + ":pynwgraph::get_correspondence", S + "core/pyiterator.cpp:NWCorrespondenceIterator"])
p("C62", "A finished iterator stays finished",
  "Once an iterator has raised StopIteration it raises it again on every later call, whatever happened to the graph in between, and changes nothing.",
  "all graphs, iterators and sequences of calls", "history property", [S + "core/pyiterator.cpp", S + "detail/graph/enumerate.cpp", S + "detail/nwgraph/nw_enumerate.cpp"])
p("C63", "Asking a NWGraph again never gives a lighter clique",
  "Two get_max_clique calls in a row on the same NWGraph: the second answer is not lighter than the first.",
  "all weighted graphs, bounds, flags and earlier calls", "history property", [PN + ":pynwgraph::get_max_clique", S + "detail/nwgraph/nw_heuristic.cpp"])

p("C64", "The correspondence graphs use the metrics they are given",
  "A2AGraph, A2LGraph, L2AGraph and L2LGraph build their graph with the metrics passed to the constructor; a metric that is not passed is the Euclidean distance for an array, and otherwise an exception is raised; with use_cfunc_only the metrics play no part.",
  "all sets, metrics and symmetry flags", "the choice is spread over Python constructors, argument lists, overloads and template defaults",
  [S + "wrappers/_gen_graph.py", S + "wrappers/a2agraph.py", S + "wrappers/l2lgraph.py", S + "templates/wrap_template.hpp", S + "templates/ext_template.h"])
p("C65", "A correspondence graph returns a largest set of mutually consistent matches",
  "After build_edges, get_correspondence with default bounds returns elements of the two sets, matched one to one, any two matches at distances within epsilon (or next to the interval, C44), and no one-to-one matching whose distances all differ by less than epsilon is larger; with a condition, among the matchings the condition accepts. all_correspondences returns such matchings of the requested size.",
  "all sets, metrics, conditions and epsilon", "joins the builder, the clique search and the decoding; all inputs",
  [S + "wrappers/_gen_graph.py", S + "templates/ext_template.hpp", PG])
p("C66", "The mask filter of AlignGraph tests the alignment it claims to test",
  "Two matches pass the filter exactly if at least the given fraction of the control points lies inside the mask after the rotation, scaling and translation that takes the two points of set 2 to those of set 1; two vertices of the built graph are adjacent only if they pass.",
  "all points, control points, masks and percentages", "points outside the image make float-to-integer conversions undefined",
  [S + "ext/Aligngraph.cpp", S + "wrappers/aligngraph.py"])

p("C67", "A continued search makes progress",
  "Each get_max_clique call with continue_search=True either finishes or moves the search on: the answer never gets smaller, the resume position never goes back, and while search_done is False some later call moves it on, so that repeating the call until search_done ends.",
  "all graphs, clocks, time limits and sequences of continued calls", "liveness over a history of interrupted searches",
  [PG + ":pygraph::get_max_clique", S + "detail/graph/dfs_recurse.cpp", S + "detail/graph/dfs_stack.cpp"])

p("C68", "all_cliques lists cliques in a fixed order",
  "An iterator of Graph.all_cliques yields cliques ordered by their vertex of least degree (the lowest one, for equal degrees), and cliques with the same such vertex in lexicographic order; NWGraph.all_cliques likewise, with the first vertex of its search order (weights whose sums are doubles). The order is total on cliques, so the list depends on nothing but the graph and the size.",
  "all graphs, sizes and earlier calls", "invariant over a hand-written stack of candidate sets; loop invariants over all graphs",
  [G + "enumerate.cpp:process_vertex", G + "enumerate.cpp:process_graph", S + "detail/nwgraph/nw_enumerate.cpp"])

p("C69", "Rounding does not lose matches whose distances agree",
  "With distances and epsilon nonnegative finite doubles and the ends of the interval rounded to nearest, as the machine does, (i,j) and (i',j') are adjacent whenever |d1(i,i') - d2(j,j')| < epsilon.",
  "all sets, metrics, epsilon, tie orders of std::sort and ways to break ties in rounding", "floating-point error analysis; all distance tables",
  [EX + ":edges_from_relsets", EX + ":efr_condition", S + "templates/pair_dist.hpp:binary_find2"])
p("C70", "Rounding adds no matches beyond those next to the interval",
  "Under the same conditions (i,j) and (i',j') are adjacent only if |d1(i,i') - d2(j,j')| <= epsilon up to 3 * 2^-53 * (d1(i,i') + epsilon), or no distance of set 2 outside that margin is closer to the interval on that side; on either side at most one pair is matched beyond the margin.",
  "all sets, symmetric metrics, epsilon, tie orders and rounding ties", "floating-point error analysis; all distance tables",
  [EX + ":edges_from_relsets", EX + ":efr_condition", S + "templates/pair_dist.hpp:binary_find2"])

p("C71", "Searching before enumerating does not lose cliques of a NWGraph",
  "After any calls of get_max_clique and completed enumerations, NWGraph.all_cliques(W) yields the same cliques in the same order as on the freshly loaded graph.",
  "all graphs, weights, W, bounds and earlier calls", "all graphs, and a history property: the bounds stored by a search are reused to prune",
  [S + "detail/nwgraph/nw_dfs.cpp:129", S + "detail/nwgraph/nw_enumerate.cpp:13", S + "core/pynwgraph.cpp:get_max_clique"])

p("C72", "Floating-point weights give the heaviest cliques",
  "With non-negative finite doubles as weights and sums rounded to nearest, get_max_clique returns a clique of maximum weight, all_cliques(W) lists cliques of weight at least W and every heavy clique contains one of them, and get_clique_weight(c) does not depend on the order of c and is the sum of the weights up to a factor (1 +- 2^-53)^|c|.",
  "all weighted graphs, finite double weights, ways to break ties in rounding", "floating-point error in running sums that are added to and subtracted from; all graphs",
  [S + "detail/nwgraph/nw_dfs.cpp:109", S + "detail/nwgraph/nw_dfs.cpp:149", S + "detail/nwgraph/nw_dfs.cpp:179", S + "detail/nwgraph/nw_enumerate.cpp", NW + "nwclique.cpp:get_clique_weight"])

p("C73", "get_correspondence is safe for all lengths",
  "For every loaded graph and all lengths len1, len2, get_correspondence(len1, len2, ...) ends without undefined behaviour; the pairs (i, j) it returns satisfy i < len1 and j < len2, and the vertices i * len2 + j + 1 form a clique.",
  "all graphs, lengths, bounds, time limits and earlier calls", "all graphs and call histories; the lengths are those of containers that may have changed since the graph was built",
  [PG + ":get_correspondence2", PG + ":get_correspondence"])

p("C74", "AlignGraph returns the motion that sends the matched points to their partners",
  "AlignGraph.get_correspondence(return_indices=False) returns a rotation matrix and (dx, dy) such that p * rotmat + (dx, dy) is the partner of p for every matched point p of S1 whenever some rotation and translation do that, and has the least sum of squared distances otherwise.",
  "all point sets over an ordered field, all matchings, all valid singular value decompositions", "optimality over all rotations and translations; the singular value decomposition is not unique",
  [S + "wrappers/aligngraph.py:119", S + "wrappers/aligngraph.py:get_correspondence"])

p("C75", "MaskFilter and build_edges_with_filter decide alike",
  "For all points, control points, masks and percentages the Python condition MaskFilter returns what the filter of AlignGraph.build_edges_with_filter computes in C++, so that build_edges_with_condition(MaskFilter(...), False) and build_edges_with_filter(...) build the same graph.",
  "all point sets, index quadruples, control points, masks and percentages", "equivalence of two implementations in different arithmetic, lifted through the construction of the graph",
  [S + "wrappers/aligngraph.py:36", S + "ext/Aligngraph.cpp:filter_score", S + "ext/Aligngraph.cpp:build_edges_with_filter"])

p("C76", "A NWGraph with equal weights behaves like the Graph",
  "If all weights of a NWGraph are equal and positive, its all_cliques with the weight of k vertices lists the same cliques in the same order as all_cliques(k) of the Graph with the same edges, also after searches and resets on either, and get_max_clique of the two returns cliques of the same, maximum size.",
  "all graphs with an edge, all positive weights, all sizes k, all earlier calls whose bounds exclude no clique", "relates two separately written search engines with different orders, bounds and state",
  [G + "enumerate.cpp", NW + "nw_enumerate.cpp", PG + ":all_cliques", PN + ":all_cliques"])

p("C77", "Building a graph again does not invalidate its iterators",
  "When a correspondence graph is built again (build_edges and the other builders), an iterator created before remains usable: its next step yields a clique of the new graph or raises StopIteration, and an iterator that has ended stays ended.",
  "all builders and inputs, all iterators in any state, any calls and any number of rebuilds in between", "lifetime of storage shared between objects; undefined behaviour need not show in a test",
  [IT, S + "core/pyiterator.h:13", PG + ":load_graph", S + "detail/graph/enumerate.cpp:88"])

p("C78", "theta is the angle of the alignment",
  "The dictionary returned by AlignGraph.get_correspondence(return_indices=False) describes one transformation: rotmat is the matrix of theta ([[cos, -sin], [sin, cos]], points as rows), and turning the points of S1 by theta and shifting them by (dx, dy) does what rotmat and the shift do.",
  "all ordered fields, all sets of points, all valid decompositions, all functions cos, sin and arccos with the laws stated", "the sign convention of an angle and the NaN branch depend on values a few random tests do not reach",
  [S + "wrappers/aligngraph.py:139-150", "tests/test_align.py:35-55"])

p("C79", "The two depth-first searches return the same clique",
  "dfs_stack.cpp says that dfs_recurse.cpp implements the same algorithm: get_max_clique with a time limit that does not run out and without a time limit return the same clique. Each search returns a clique determined by the edges alone: not by the order in which they were loaded, the bounds, or the order of evaluation.",
  "all graphs with an edge, all ways to load them, all bounds that exclude no clique, both searches", "tie breaking among maximum cliques depends on the order of pruning and recording in two separately written searches",
  [G + "dfs_stack.cpp:3", G + "dfs_recurse.cpp:3", G + "dfs_stack.cpp:process_vertex", G + "dfs_recurse.cpp:search_vertex", G + "graph.cpp:set_bounds"])

p("C80", "NWGraph.get_max_clique() without arguments returns a heaviest clique",
  "Called without arguments on a NWGraph with non-negative weights that is fresh or has been reset, get_max_clique returns a clique such that no clique is heavier.",
  "all NWGraphs from from_edgelist and from_matrix with an edge, live storage, and weights whose sums are exactly representable; all weights and call histories for what is returned",
  "the defaults lower_bound = 1 and upper_bound = 0xFFFF are copied from Graph, where they count vertices; here they are weights",
  [S + "core/wrap_pygraph.cpp:81", PN + ":get_max_clique", NW + "nw_dfs.cpp:process_graph"])

p("C81", "Loops over NWGraph.all_cliques may be left and nested",
  "Inside loops over all_cliques, after loops left by break, and while only the innermost iterator is advanced, get_max_clique and all_cliques work without undefined behaviour: get_max_clique returns cliques (heaviest ones after reset_search), and every iterator returns the sequence it would return alone on the fresh graph (these two for weights that are not negative and whose sums are doubles). This needs room: the cliques that the unfinished iterators returned last are together not larger than a clique of the graph and 1, which is always so for one of them.",
  "all NWGraphs from from_edgelist and from_matrix with an edge and live storage, all roundings, all programs of nested loops with searches and resets inside; the sequence and the heaviest clique for non-negative weights whose sums are exactly representable and upper bounds that exclude no clique",
  "an iterator keeps its frames in the scratch space of the graph, above those of the iterators that were started before; nothing checks that they are left as they were",
  [NW + "nw_enumerate.cpp:process_graph", IT + ":NWCliqueIterator", NW + "nw_dfs.cpp:process_vertex", G + "graph.cpp:107-128"])

p("C82", "All ways to load a NWGraph build the same object",
  "NWGraphs loaded from the same graph and weights by from_edgelist and from_matrix are the same object except for n_edges and for whether construction moved the storage: the same rows, weights, weighted degrees, bounds and start vertex; and any sequence of calls observes the same results on both.",
  "all graphs, weights and roundings; all programs of get_max_clique, get_correspondence, reset_search, all_cliques, all_correspondences, get_clique_weight, get_all_weights, vertex_neighbors, to_adj_matrix, to_adj_list and search_done in any order",
  "the loaders fill, sort and deduplicate the edge list in different ways and reserve different amounts; the weighted degrees are sums in the order of the rows",
  [PN + ":nw_from_edgelist", PN + ":nw_from_adj_matrix", NW + "nwgraph.cpp:nwgraph"])

p("C83", "search_done tells which search was the last one",
  "After any sequence of calls, search_done is True if the last search was a depth-first search without time limit, and False if there was no search since loading or reset_search or the last one was without use_dfs (on a Graph such a search with continue_search leaves it as it was).",
  "all loaded Graphs and NWGraphs with at least one vertex, all programs that return",
  "search_done is computed from a position that every search resets, and the iterators share the object with the searches",
  [PG + ":get_max_clique", PN + ":get_max_clique", PG + ":reset_search", S + "core/wrap_pygraph.cpp:19"])

p("C84", "NWGraph without edges can be searched",
  "On an NWGraph with at least one vertex and no edges, get_max_clique and loops over all_cliques(T) are memory-safe.",
  "all vertex counts, weights, bounds, thresholds", "all edgeless weighted graphs", [PN + ":pynwgraph::get_max_clique", NW + "nwgraph.cpp:nwgraph::find_max_cliques", NW + "nw_enumerate.cpp"])
p("C85", "NWGraph: use_heuristic=False with use_dfs=False raises",
  "NWGraph.get_max_clique(use_heuristic=False, use_dfs=False) on a fresh graph raises RuntimeError and returns no vertex that does not exist.",
  "all weighted graphs, bounds", "all weighted graphs", [PN + ":pynwgraph::get_max_clique"])
p("C86", "Methods on an unloaded NWGraph raise",
  "On NWGraph(), get_max_clique, the exports, all_cliques, get_all_weights, get_clique_weight, reset_search and get_vertex_data raise RuntimeError.",
  "all argument values", "all arguments", [PN + ":pynwgraph::check_loaded", PN + ":pynwgraph::reset_search"])

p("C87", "Bounds of NWGraph.get_max_clique",
  "On a fresh NWGraph get_max_clique(lower_bound=L, upper_bound=U) returns a clique of weight in (L, U], as the message of the exception says, and raises only if there is none.",
  "all weighted graphs, L, U", "all weighted graphs and bounds", [PN + ":pynwgraph::get_max_clique", "docs/source/api.rst"])

p("C88", "NWGraph results do not depend on uninitialised memory",
  "The searches of an NWGraph reserve storage without initialising it and construct states with arguments evaluated in an unspecified order; neither has an influence on what get_max_clique, get_correspondence and list(all_cliques(T)) return and leave behind.",
  "all NWGraphs with an edge and live storage, all weights, roundings, bounds, histories, contents of the reserved storage, orders of evaluation",
  "uninitialised reads are invisible when the allocator returns zeroed pages", [NW + "nw_dfs.cpp:process_graph", NW + "nw_dfs.cpp:process_vertex", NW + "nw_enumerate.cpp:load_vertex", NW + "nw_enumerate.cpp:process_graph"])

p("C89", "Graph results do not depend on the order of evaluation",
  "The search state of a root is constructed from two bitsets whose allocations the compiler may order either way; get_max_clique, get_correspondence and list(all_cliques(k)) return and leave behind the same in both orders, even if every call of a program makes its own choice. In the middle of an enumeration the scratch memory does differ.",
  "all Graphs with an edge and live storage, all histories, bounds, clocks, options and sizes; all programs of searches, resets and enumerations",
  "a compiler makes one choice, so tests see only one", [G + "dfs_stack.cpp:process_vertex", G + "dfs_stack.cpp:process_graph", G + "enumerate.cpp:load_vertex", G + "enumerate.cpp:process_graph", PG + ":get_max_clique"])

p("C90", "all_correspondences(k) lists every correspondence once",
  "list(all_correspondences(k)) contains every set of k pairwise compatible matches exactly once, and nothing else; with return_indices=False it contains their elements; for IsoGraph these are the subgraphs of size k.",
  "all sets, metrics, conditions, graphs, sizes k, and calls made before", "correspondences are decoded from cliques whose enumeration has special cases at the first vertex",
  [S + "core/pyiterator.cpp:CorrespondenceIterator::next_clique", PG + ":get_correspondence2", S + "wrappers/_gen_graph.py:all_correspondences", S + "wrappers/isograph.py:all_correspondences"])

p("C91", "An iterator and its copies deliver one sequence",
  "iter(it) returns a copy of the iterator object; next(...) on it and its copies, in any order, delivers together the cliques (or correspondences) of list(it), each once and in order, and StopIteration afterwards, so that a for loop continues where next(it) stopped.",
  "all Graphs and NWGraphs, iterators in any state, programs of iter and next over any number of copies", "the copies share the enumerator but are different Python objects",
  [S + "core/pyiterator.cpp:init_iterators", S + "core/pyiterator.h:CliqueIterator", S + "core/pyiterator.h:NWCliqueIterator", S + "core/pyiterator.h:CorrespondenceIterator", S + "core/pyiterator.h:NWCorrespondenceIterator", S + "wrappers/_gen_graph.py:10"])

p("C92", "A larger epsilon loses no edges",
  "Rebuilding a correspondence graph from the same sets with an epsilon that is not smaller, or with a condition function that accepts no less, keeps every edge, so the largest correspondence does not become smaller.",
  "all sets, metrics (symmetric or not), condition functions and pairs of epsilons; exact and rounded interval ends", "the binary search may stop beside the interval or anywhere among equal distances, and the ends of the interval are rounded twice",
  [EX + ":edges_from_relsets", EX + ":efr_condition", S + "templates/pair_dist.hpp:binary_find2"])

p("C93", "In floating point, the elements returned are a largest matching of close distances",
  "With distances and epsilon that are doubles and the ends of the interval rounded to nearest, get_correspondence with default bounds returns elements matched one to one at distances within epsilon, and no one-to-one matching whose distances all differ by less than epsilon is larger; later searches return such matchings as well.",
  "all sets, symmetric metrics with double values, conditions, epsilon and roundings to nearest", "the two roundings decide which pairs are matched at the ends of the interval, and one lost edge makes the matching smaller",
  [S + "wrappers/_gen_graph.py", EX + ":edges_from_relsets", EX + ":efr_condition"])

p("C94", "AlignGraph returns a largest set of matches that align the images",
  "After AlignGraph.build_edges_with_filter, get_correspondence with default bounds returns a one-to-one matching of the points at distances within epsilon such that, for any two matches, the similarity that takes the points of S2 to those of S1 keeps the given fraction of the control points inside the mask; no such matching is larger. With return_indices=False it returns the points of such a matching and a rotation matrix.",
  "all point sets, control points, masks, percentages and epsilon; all bounds and earlier searches for the dictionary", "joins the filter, the builder, the clique search, the decoding and the Kabsch step",
  [S + "wrappers/aligngraph.py:91", S + "wrappers/aligngraph.py:152", S + "ext/Aligngraph.cpp"])

p("C95", "AlignGraph.all_correspondences lists every alignment of the size asked for",
  "After AlignGraph.build_edges_with_filter, list(all_correspondences(k, return_indices=False)) contains, once each, a dictionary for every set of k one-to-one matches whose distances agree within epsilon and of which any two define a similarity that keeps the given fraction of the control points inside the mask, and nothing else.",
  "all point sets, control points, masks, percentages, epsilon and k >= 2", "joins the filter, the builder, the enumerator, the wrapped iterator and the Kabsch step; the enumerator never starts at vertex 1",
  [S + "wrappers/_gen_graph.py:146", S + "wrappers/aligngraph.py:119", S + "wrappers/aligngraph.py:91", S + "ext/Aligngraph.cpp"])

p("C96", "Exchanging the two sets exchanges the sides of all matches",
  "If the correspondence graph of (S1, S2) joins (i, j) to (i', j'), that of (S2, S1), built with the same epsilon and the condition with its arguments exchanged, joins (j, i) to (j', i'), and conversely; get_correspondence therefore returns equally many pairs. The same holds for IsoGraph(G1, G2) and IsoGraph(G2, G1).",
  "all sets, metrics, epsilons, conditions and graphs", "relates two builds; the search in the sorted distances treats the two sets differently",
  [EX + ":edges_from_relsets", EX + ":build_edges_condition_only", S + "ext/Isograph.cpp"])
p("C97", "IsoGraph decides subgraph isomorphism",
  "IsoGraph(G1, G2).get_correspondence() matches all vertices of G2 exactly if G1 contains a copy of G2 (a one-to-one map of the vertices that sends edges to edges), and the matched vertices span isomorphic subgraphs.",
  "all graphs G1 and G2", "needs the maximum over all embeddings, and an equivalence with an existential statement",
  [S + "wrappers/isograph.py:8", S + "wrappers/isograph.py:41", S + "ext/Isograph.cpp"])

p("C98", "Renumbering the vertices renumbers the answers",
  "If two Graphs differ only by the numbers of their vertices, get_max_clique returns cliques of the same size, and all_cliques(k) lists the same cliques up to the new numbers.",
  "all graphs and renumberings, k >= 2, orders of equal degrees, bounds that exclude no clique", "n! renumberings; ties and the start vertex depend on the numbers",
  [S + "core/pygraph.cpp:get_max_clique", S + "core/pyiterator.cpp", S + "detail/graph/enumerate.cpp"])
p("C99", "Another edge takes nothing away",
  "If an edge is added to a Graph, get_max_clique returns a clique of the same size or one larger, and all_cliques(k) still lists every clique it listed before.",
  "all graphs and pairs of vertices, k >= 2, orders of equal degrees, bounds that exclude no clique", "relates two runs whose orders of vertices differ",
  [S + "core/pygraph.cpp:get_max_clique", S + "core/pyiterator.cpp", S + "detail/graph/enumerate.cpp"])

p("C100", "A set contained in another is matched completely",
  "If the elements of S1 can be placed one to one among those of S2 so that no distance between two of them changes by more than epsilon (for example because S2 is S1 in another order), get_correspondence with default bounds returns all elements of S1.",
  "all sets of two or more elements, symmetric metrics, epsilon and placements", "only the best of exponentially many matchings is complete",
  [S + "wrappers/_gen_graph.py", EX + ":edges_from_relsets", S + "templates/pair_dist.hpp:binary_find2"])

p("C101", "The unit of the weights does not matter",
  "Multiplying all weights of a NWGraph and all weight bounds passed to it by the same positive number changes neither the cliques returned by get_max_clique nor those listed by all_cliques; reported weights are multiplied by it.",
  "all loaders, weights, bounds, factors that rounding respects (powers of two for doubles) and programs that call one object", "every comparison in construction, search and enumeration must compare weights with weights",
  [NW + "nwgraph.cpp", NW + "nw_dfs.cpp", NW + "nw_enumerate.cpp", NW + "nw_heuristic.cpp", PN + ":get_max_clique"])

p("C102", "The unit of the distances does not matter",
  "Multiplying all distances and epsilon by the same positive number changes neither the correspondence graph that build_edges and build_edges_with_condition make nor the matches found in it.",
  "all sets, metrics, symmetry flags, conditions, epsilon and factors; also the Euclidean default metric", "interval ends are rounded sums; the search among the distances of the second set compares rounded with unrounded numbers",
  [S + "templates/pair_dist.hpp:binary_find2", S + "templates/relset.hpp:fill_dists", EX + ":edges_from_relsets", EX + ":efr_condition", S + "wrappers/_gen_graph.py"])

p("C103", "The weight of the heaviest clique grows with the graph",
  "Adding vertices or edges to a NWGraph or raising weights never lowers the weight of the clique get_max_clique returns, and renumbering the vertices does not change it; a clique that all_cliques(T) listed is still listed.",
  "all pairs of graphs one of which contains the other, loaders, non-negative weights with exact sums, bounds, earlier calls and contents of uninitialised memory", "loading sorts the vertices and prunes with running bounds that change as a whole when one weight changes",
  [NW + "nwgraph.cpp", NW + "nw_dfs.cpp", NW + "nw_enumerate.cpp", NW + "nw_heuristic.cpp", PN + ":get_max_clique"])

p("C104", "Vertices without neighbours do not matter",
  "Adding vertices without neighbours changes neither the clique that get_max_clique returns nor the sequence that all_cliques yields, for Graph and for NWGraph.",
  "all loaders, numbers of new vertices, weights of the new vertices, bounds, with and without a time limit", "the number of vertices enters the order of the search, the storage layout and the fuel of every loop",
  [G + "graph.cpp:set_bounds", G + "dfs_recurse.cpp", G + "dfs_stack.cpp", G + "enumerate.cpp", NW + "nw_dfs.cpp", NW + "nw_enumerate.cpp"])

p("C105", "Exporting and loading again gives the same object",
  "After any calls, loading what to_matrix, to_adjlist or to_edgelist returns (for NWGraph with the weights that are read back) gives an object for the same graph, with the right n_edges, that no program can tell from the first one.",
  "all loaders, any searches, resets and iterator steps in between; any later program", "the three formats use different code on the way out and in, the edge count takes a path of its own (C07)",
  [G + "graph.cpp", PG + ":to_matrix", PG + ":to_adjlist", PG + ":to_edgelist", PN + ":to_matrix", PN + ":to_edgelist"])

p("C106", "Which of several heaviest cliques NWGraph returns",
  "Without the heuristic, get_max_clique of a fresh NWGraph, with weights that are not negative and whose sums are doubles, returns, if its answer has two or more vertices, the first heaviest clique in one fixed order: cliques built from the vertex whose later neighbours weigh most, then from vertex 1, 2, ..., each group in lexicographic order. The answer is a function of the edges and the weights.",
  "all loaders, rounding that keeps the sums, weights that are not negative, bounds above all cliques, any behaviour of std::sort and of the evaluation order", "ties are broken by the order in which the stack is worked off, and pruning removes cliques of equal weight",
  [NW + "nw_dfs.cpp", NW + "nwgraph.cpp:set_bounds", PN + ":get_max_clique"])

p("C107", "The recursion of the timed search is no deeper than a largest clique",
  "A get_max_clique with a time limit never has more nested calls of search_vertex on its call stack than a largest clique has vertices (graphs with an edge, bitset storage not reallocated during construction).",
  "all graphs with an edge, loaders, earlier calls, bounds, time limits and options", "the recursion is not guarded by a counter; each level must be shown to extend a clique of the graph although the candidate sets are only bit masks in shared storage",
  [G + "dfs_recurse.cpp:search_vertex", G + "clique.cpp", PG + ":get_max_clique"])

p("C108", "Two graphs side by side",
  "For a graph that consists of two others without edges between them, get_max_clique with use_dfs finds a clique as large (NWGraph: as heavy) as the better of the two answers, and all_cliques(k) (NWGraph: all_cliques(T)) lists the cliques of the first, then all those of the second; behind a vertex without neighbours all_cliques(k) is complete.",
  "all pairs of graphs, loaders, sizes k of 2 and more, bounds, options, behaviours of std::sort", "the numbers of the second graph's vertices change, and with them the search order, the bit positions and the special treatment of vertex 1",
  [G + "dfs_recurse.cpp", G + "dfs_stack.cpp", G + "enumerate.cpp", PG + ":all_cliques", NW + "nw_dfs.cpp", NW + "nw_enumerate.cpp"])

p("C109", "Two graphs with all edges between them",
  "For a graph that consists of two others and all edges between them, get_max_clique finds a clique with as many vertices as the two answers together (NWGraph: as heavy as the two together, if every vertex has a neighbour in its own graph).",
  "all pairs of graphs, loaders, bounds, options, behaviours of std::sort", "every search crosses from one graph into the other, on rows that hold all vertices of the other graph",
  [G + "dfs_recurse.cpp", G + "dfs_stack.cpp", NW + "nw_dfs.cpp"])

p("C110", "Colours bound the answers",
  "If the vertices can be coloured with k colours so that neighbours differ, no call ever returns more than k vertices (NWGraph: nor more weight than the heaviest vertices of all colours together), and all_cliques for a larger size lists nothing; if a graph can be mapped to another, neighbours to neighbours, no answer for it is larger than that for the other.",
  "all graphs, colourings, mappings, histories, arguments", "an upper bound for everything the searches return, heuristic and interrupted ones included",
  [G + "dfs_recurse.cpp", G + "dfs_stack.cpp", G + "heuristic.cpp", G + "enumerate.cpp", NW + "nw_dfs.cpp"])

p("C111", "What the debugging output shows",
  "graph::disp and nwgraph::disp (not reachable from Python) end without reading out of range and leave the graph as it is; for the vertices they print, in increasing order, they show the vertex with its neighbours, and a clique of the graph that contains it; in a new graph they print the vertices with a neighbour that comes later in the search order (with weights: those that weigh more together with such neighbours). The number called \"edges\" is the number of neighbours; every vertex with a neighbour is printed; the weight printed for a clique is its weight.",
  "all graphs with an edge, loaders, histories of calls", "they read the stored bit rows of every vertex, whatever searches and enumerations left in them",
  [S + "detail/gbits.cpp:show", G + "vertex.cpp:disp", G + "graph.cpp:disp", NW + "wvertex.cpp:disp", NW + "nwgraph.cpp:disp"])

p("C112", "The heuristic alone finds what a greedy choice finds",
  "get_max_clique(use_dfs=False) on a fresh graph, unless upper_bound stops it, returns a clique at least as large as the one obtained from any vertex v as follows: go through the neighbours of v that come later in the search order (more neighbours, or as many and a higher number), those with more neighbours first and equals in some order, and take each that is adjacent to all taken before.",
  "all graphs with an edge, vertices, orders of equals, bounds", "the size left by the loop over all vertices with its cut-offs, not by one of them",
  [G + "heuristic.cpp:process_graph,process_vertex", PG + ":pygraph::get_max_clique"])

out = os.path.join(os.path.dirname(os.path.abspath(__file__)), "..", "properties.jsonl")
with open(out, "w") as f:
    for x in P:
        f.write(json.dumps(x, ensure_ascii=False) + "\n")
print(len(P))
