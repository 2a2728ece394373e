# Formal model of cliquematch: design

Source of truth: `/repo` (pinned commit of ahgamut/cliquematch), read as text.
Prover: Rocq/Coq 8.16.1, standard library only.

## 1. What is modelled, and how

The model is an executable functional program (`rocq/theories/M*.v`), written function by function after the C++.
Every definition cites the file and lines it models and lists its simplifications.

### Outcomes
`outcome A = Ok a | UB why | OutOfFuel`. Undefined behaviour (out-of-range vector access, access through a dangling or null
pointer, division by zero) is a distinct outcome; nothing is totalised by a default value. C++ exceptions are values
(`exc A = Ret a | Raise e`) because the object survives a throw with whatever state it had. Loops run on fuel; every
theorem that concludes `Ok` thereby excludes `OutOfFuel`.

### Machine words and memory
* The 64-bit words of `edge_bits` are `N` numbers below 2^64, one shared array, addressed by offset: `graphBits` objects are
  offsets into it, so aliasing, the bump allocator (`load_memory`/`clear_memory`) and overlapping bugs are visible.
* Counters, vertex ids and offsets are `nat`. Where u64 wrap-around matters (`binary_find` with an empty range,
  `search_end - search_start`) the model uses `Z` modulo 2^64.
* `ALL_ONES << 64` (undefined in C++, `refer_from` with a length divisible by 64) is given the x86-64/AArch64 meaning
  (shift count taken modulo 64); a separate theorem shows exactly when the source relies on it (C53).
* Reading `a[-1]` through wrapped pointer arithmetic (recursive search and enumerator call `binary_find` with an empty range)
  is given flat-memory meaning; the read must still land inside the vector or the outcome is `UB`.
* `std::vector` capacity is modelled with libstdc++'s growth policy (doubling in `push_back`, exact in `resize` from empty);
  a reallocation of `edge_bits` in `set_bounds` clears a model-only flag `bits_live`, and any later access through
  `vertices[i].bits` is then `UB Dangling` (C13).
* After `states.pop_back()` the searches and enumerators still use the reference `cur_state` to the removed element
  (dfs_stack.cpp:186-191, enumerate.cpp:214-221, nw_dfs.cpp:173-179, nw_enumerate.cpp:196-202). Formally its lifetime has ended; the model
  gives it the value of the unchanged bytes (the type is trivially destructible).
* The order in which the two `load_memory` arguments of `SearchState x(...)` are evaluated is unspecified in C++11: the model
  takes it as a parameter and theorems hold for both orders.
* `std::sort` leaves the order of equal keys unspecified: the model takes the sorting function as a parameter, constrained only
  to return a sorted permutation (or just a permutation).
* The steady clock is a parameter `nat -> bool`: the answer of the n-th `elapsed_time() > TIME_LIMIT` test.
* `double` weights and distances are integers `Z`: multiples of a unit, 2^-1074 at the smallest. Every addition and subtraction of the metric
  builders and of `nwgraph` passes its result through a function `rnd`, a parameter of the model. It is arbitrary where rounding does not
  matter (memory safety, termination, "the answer is a clique", what no call changes); monotone (`rises`) for C42, C46, C48, C56; such that
  no sum of weights of distinct vertices is changed (`sums_exact`) for the statements about clique weights; round to nearest
  (`SpecRound.nearest`) for C69, C70 and C72; the identity (`exact`) for C43-C45 and C65. Examples and witnesses use `half_even`.

### Files
| file | content |
|---|---|
| `Base` | outcome monad, checked array access, loops |
| `MBits` | `detail/gbits.{h,cpp}` |
| `MUtils` | `detail/utils.{h,cpp}` |
| `MGraph` | `vertex.*`, `graph.*`, `clique.cpp`, `searchstate.h` |
| `MHeur`, `MStack`, `MRec`, `MEnum` | `heuristic.cpp`, `dfs_stack.cpp`, `dfs_recurse.cpp`, `enumerate.cpp` |
| `MApi` | `core/pygraph.cpp`, `core/pyiterator.*` |
| `MFile` | `detail/mmio.cpp`, `pygraph::from_file`/`to_file`, character by character |
| `MNW`, `MNWEnum`, `MNWApi` | `detail/nwgraph/*`, `core/pynwgraph.cpp`, `NWCliqueIterator` |
| `MExt` | `templates/*.hpp`, `ext/Isograph.cpp`, `CorrespondenceIterator` |
| `MPy` | `wrappers/isograph.py` |
| `MGen` | `wrappers/{_gen_graph,a2agraph,a2lgraph,l2agraph,l2lgraph}.py`, `templates/wrap_template.hpp` |
| `MAlign` | `ext/Aligngraph.cpp` (exact rationals) |
| `MMask` | `wrappers/aligngraph.py` `MaskFilter` (the conversion to float32 a parameter) |
| `MKabsch` | `wrappers/aligngraph.py` `_format_correspondence` (any ordered field; `svd` and `arccos` parameters) |
| `Spec`, `SpecBits`, `SpecDec`, `SpecNW`, `SpecKeep`, `SpecGen`, `SpecCont`, `SpecNest`, `SpecState`, `SpecOrder`, `SpecFile` | what the properties are stated with: adjacency, cliques, degrees, weights, histories of calls; no proofs, no model helpers (histories mention the API functions, since they are sequences of calls) |
| `BaseFacts` `BitsFacts` `PopFacts` `SetFacts` | Hoare-style rules (`ends_with`), bitset operations against finite sets, SWAR popcount |
| `FindFacts` `FindTwo` `SortFacts` `RadixFacts` | the two binary searches; insertion sort, American-flag radix sort, unique |
| `RowFacts` `ConstructFacts` `LoadFacts` `ExportFacts` `LoadProps` `LiveFacts` | the graph constructor, loaders, exporters, when storage stays live |
| `FileFacts` `FileProps` `FileAny` `FileShort` `FileCount` | tokenising, reading and writing files; files of any form, with too few lines; any n_edges |
| `SearchBase` `CardFacts` `FrameFacts` `FrameInv` `LexFacts` `StackFacts` `RecFacts` `HeurFacts` `SearchFacts` `CliqueFacts` `ApiFacts` `SatFacts` `SearchProps` | searches |
| `EnumFacts` `EnumApi` | the enumerator and its iterator |
| `IsoFacts` `ExtFacts` `ExtProps` | edge builders, isomorphism products |
| `SpecRound` `RoundFacts` `RoundProps` `RoundSamples` `P_Round` | doubles, rounding to nearest, the metric builders with rounded interval ends |
| `NWRoundFacts` `NWRoundProps` `NWRoundSamples` `P_NWRound` | rounded sums of weights |
| `SpecMask` `MaskProps` `P_Mask` | MaskFilter compared with the filter in C++ |
| `EqualProps` `P_Equal` | NWGraph with equal weights compared with Graph |
| `MIter` `SpecIter` `IterFacts` `P_Iter` | iterators of correspondence graphs that are built again |
| `SpecFirst` `FirstFacts` `FirstSamples` `P_First` | which of the maximum cliques a search returns |
| `SpecNWNest` `NWNestFacts` `NWNestProps` `NWNestSamples` `P_NWNest` | NWGraph: iterators left unfinished while other calls run |
| `SpecScript` `ScriptFacts` `FlagFacts` `ScriptSamples` `P_Script` | whole programs using one object: what they observe (C10, C82), search_done (C83) |
| `SpecChoice` `DetFacts` `EnumDet` `DetApi` `ChoiceSamples` `P_Choice` | Graph searches and enumerations are determined whichever bitset is allocated first |
| `MCorr` `SpecCorr` `CorrFacts` `CorrSamples` `P_Corr` | lists of correspondences, for the wrappers and IsoGraph |
| `MCorrIter` `CorrIter` `P_CorrIter` | the iterator over correspondences with the lengths it keeps (C61, C90) |
| `MAlignIter` `AlignIter` `P_AlignIter` | the same for AlignGraph (C95) |
| `MShare` `SpecShare` `ShareFacts` `P_Share` | copies of iterator objects, which share the enumerator |
| `MNWCorr` | the correspondence iterator of NWGraph as a list (C61, C91) |
| `EpsFacts` `EpsProps` `P_Eps` | the matching loop exactly, and two runs of it with different epsilons or conditions |
| `GenRound` `GenRoundSamples` `P_GenRound` | the generic wrappers with rounded interval ends, from the metrics to the elements returned |
| `MAlignGraph` `SpecAlign` `AlignProps` `AlignAll` `AlignSamples` `P_Align` `P_AlignAll` | the class AlignGraph: filter, search or enumeration, and dictionary together |
| `SpecSwap` `SwapFacts` `P_Swap` | the two sets exchanged (C96), subgraph isomorphism (C97) |
| `SpecChange` `ChangeFacts` `P_Change` | the same graph with other numbers (C98), or with another edge (C99) |
| `SpecContain` `ContainFacts` `P_Contain` | a set contained in another (C100) |
| `SpecUnits` `UnitFacts` `UnitSamples` `P_Units` | weights in another unit (C101) |
| `SpecScale` `ScaleFacts` `P_Scale` | distances in another unit (C102) |
| `SpecGrow` `GrowFacts` `GrowSamples` `P_Grow` | larger and heavier weighted graphs (C103) |
| `SpecLone` `LoneFacts` `HeurCount` `LoneSamples` `P_Lone` | vertices without neighbours (C104) |
| `SpecNWFirst` `NWFirst` `NWFirstLone` `NWFirstSamples` `P_NWFirst` | which heaviest clique NWGraph returns (C106), with light vertices added (C104) |
| `MDepth` `DepthFacts` `DepthNeed` `DepthSamples` `P_Depth` | get_max_clique with a call stack of limited depth (C107) |
| `SpecBeside` `BesideFacts` `BesideLists` `BesideSamples` `P_Beside` | two graphs side by side (C108) |
| `SpecJoin` `JoinFacts` `JoinSamples` `P_Join` | two graphs with all edges between them (C109) |
| `SpecColour` `ColourFacts` `ColourSamples` `P_Colour` | colourings and mappings of graphs (C110) |
| `MShow` `MNWShow` `SpecShow` `ShowFacts` `NWShowFacts` `ShowSamples` `NWShowSamples` `P_Show` | graph::disp, nwgraph::disp and what they call (C111) |
| `SpecGreedy` `GreedyFacts` `GreedySamples` `P_Greedy` | the heuristic alone and greedy choices (C112) |
| `SpecCopy` `CopyFacts` `CopySamples` `P_Copy` | export and load again (C105) |
| `EnumCalls` `CorrCalls` | the statements about iterators for the ones that all_cliques and all_correspondences return (C11, C16, C28, C30, C31, C42, C65) |
| `SpecJunk` `NWDetFacts` `NWEnumDet` `NWDetApi` `JunkSamples` `P_Junk` | NWGraph searches and enumerations are determined whatever the reserved storage contains |
| `NWBoundSamples` `P_NWBound` | the bounds of NWGraph.get_max_clique (lemmas in `NWProps`) |
| `NWEdgeFacts` `NWEdgeSamples` `P_NWEdge` | NWGraph without edges, without a search, not loaded |
| `SpecSpace` `SpaceFacts` `SpaceSamples` `P_Space` | exactly which graphs keep their bitset storage (C13) |
| `MDefault` `DefaultProps` `DefaultSamples` `P_Default` | NWGraph.get_max_clique without arguments |
| `LengthProps` `P_Length` | get_correspondence with other lengths |
| `SpecKabsch` `KabschFacts` `KabschProps` `KabschSamples` `P_Kabsch` | the rotation and translation of AlignGraph |
| `SpecTheta` `ThetaProps` `ThetaSamples` `P_Theta` | the angle of AlignGraph |
| `NWSum` `NWBase` `NWStack` `NWHeur` `NWSearch` `NWFacts` `NWEnumFacts` `NWEnumApi` `NWProps` | the node-weighted graph |
| `KeepFacts` `KeepProps` `NWMono` | what no call changes; exporters, correspondences and repeated searches of NWGraph |
| `GenFacts` `GenProps` `AlignFacts` | the generic wrappers end to end; the mask filter |
| `ContFacts` | searches spread over several calls |
| `StateFacts` | `search_done` and the position; building again in the same object |
| `NestFacts` | iterators left unfinished while other calls run |
| `OrderFacts` `NWSame` | the order of enumeration and its consequences |
| `SpecIso` `IsoDicts` | what the dictionaries of isograph.py should say, and what they do say |
| `Samples` `ExtSamples` `NWSamples` `KeepSamples` `GenSamples` `ContSamples` `NestSamples` `SameSamples` `EqualSamples` `IterSamples` | concrete objects for examples and witnesses |
| `P_*` | property theorems only: statement, `exact lemma`, `Print Assumptions`, example |

## 2. Trusted base
* Coq 8.16.1 kernel (and `coqchk`).
* Axioms: every `Print Assumptions` in `P_*.v` answers "Closed under the global context". (A scan of all loaded libraries also lists
  `Coq.ssr.ssrunder.Under_rel.*`: abstract members of a module signature of the standard library, loaded by `lia`'s
  dependencies and used by no theorem here.)
* The hand-written correspondence between the C++ text and the model definitions.
* Not modelled: pybind11/numpy conversions, file-system errors, stderr output (but see C111), memory exhaustion, integer overflow of sizes
  beyond 2^64, overflow of doubles to infinity, iostream formatting other than decimal integers, multi-threading.

## 3. Properties: modelling and proof
General shape: every statement quantifies over all inputs of the modelled functions (any graph, any history of calls, any clock, any
evaluation order, any tie-breaking of `std::sort`); nothing is bounded. `made p n adj` says that `p` was loaded from an input denoting
the graph `adj` on 1..n; `history p q` that `q` is `p` after any calls of `get_max_clique`, `reset_search` and complete enumerations.
Two standing conditions of the search theorems, both shown necessary: the graph has an edge (C12) and `storage_live` (C13).

* C01-C05, C07, C10, C55 (`P_Load`, `P_Bits`): radix sort = sorted permutation (recursion on digits, in-place American-flag permutation
  invariant), `modUnique` keeps one of each, the constructor yields exactly the rows of the cleaned edge list; loaders and exporters are
  folds over them. Acceptance is characterised as an equivalence, not only for accepted inputs.
* C06: true when `n_edges` is right; otherwise uninitialised cells or an out-of-bounds write (two witnesses; `C06_exact` covers every case).
* C08, C09, C57 (`P_File`): the reader works on characters with C++ stream semantics (fail bit, zeroed value on failure, saturation on
  overflow, uninitialised variables as an explicit outcome). Round trip by induction over the printed lines.
  For malformed files `FileAny` proves that the reader ends in one of six ways for every text, and decides which after a readable header.
  With fewer lines than announced (`FileShort`, C09_few_lines_partial) the loop either stops at the end of the file or reads the last line's
  variables once more; both give the graph of the lines that are there. `FileCount` puts this and the case of too many lines together:
  what a file written with any n_edges is read back as (C08_any_count).
* C11, C16: memory safety and termination. The arena is described by frames (`FrameFacts`, `FrameInv`): each stack entry owns two disjoint
  blocks representing sets of positions; the bound on the number of frames is the size of a clique, which `ensure_space` covers.
* C12, C13: false; the true part gives a decidable condition for liveness: five edges, and degrees below 64 or at most 32 sqrt(edges) - 64
  (a vertex with d later neighbours has d + 1 vertices of degree at least d around it). Without it no search ever returns.
* C14, C15, C17, C18, C20, C26 (`P_Search`): invariant "every clique of this root that beats the incumbent is still covered by a frame",
  carried through push, pop, prune and record; then over roots, then over API histories.
* C33, C34 (`P_Nest`): the scratch space as a stack of iterators. Each unfinished iterator owns an interval whose contents satisfy the
  enumerator's invariant when the rest is taken to be zero; everything that runs later only writes above it. Untimed searches and
  enumerations need half of the space there is, the other half is left for the unfinished iterators.
* C81 (`P_NWNest`): the same for NWGraph. The number of frames of an iterator that has returned a clique is at most the size of that clique,
  so what an unfinished iterator occupies is bounded by what it returned last.
* C10 (continued), C82, C83 (`P_Script`): a program is a list of calls with numbered iterators, its result the list of everything it sees.
  Objects for the same graph differ at most in n_edges (and the storage flag), every call commutes with changing n_edges, so no program
  can tell them apart. C83: by induction over the program, with the invariant of `KeepProps` that searches preserve the vertex count.
* C13 (`P_Space`): the storage stays in place exactly if the words needed, computed from the degrees, are at most the capacity the vector of
  edges has reached by doubling.
* C88 (`P_Junk`): `NWDetFacts` and `NWEnumDet` define machines on sets of positions without memory that follow the depth-first search of
  one vertex and the enumeration; every concrete run follows them whatever the scratch storage holds, for every rounding, and the machine
  at its end determines every word of the graph. Two runs in different environments therefore end in equal objects.
* C89 (`P_Choice`): the same for Graph (`DetFacts`, `EnumDet`), where the potential of a frame is a count and needs no record of its own.
* C90 (`P_Corr`): increasing matchings of compatible elements and cliques of the correspondence graph are in bijection (`clique_code`), decoding
  inverts the numbering (`decode_code`), and the exact contents of list(all_cliques(k)) (C30, C35) are carried over.
  In `MCorr` the length used for decoding is an argument of every step, so a wrapper passing the lengths in the wrong order would not be
  noticed; `MCorrIter` keeps them in the iterator (C90_indices_partial, C90_iterator_elements_partial, C61_iterator for NWGraph and
  C95_iterator_partial for AlignGraph; found by such an edit). In the other theorems about these iterators (C42, C65, C91) the length is
  still an argument.
* C91 (`P_Share`): `MShare` keeps the enumerators apart from the objects that point to them; an enumerator that delivers `l` and then stops for
  good (C62) is followed through any program of iter and next.
* C92 (`P_Eps`): `EpsFacts` states which rows the matching loop pushes exactly (`taken`: the positions between the two results of
  binary_find2). A wider interval takes at least the same positions: if an end moves past no distance, the search makes the same
  comparisons; if it reaches an entry taken from beside the interval, that entry is the first (last) of its distance.
* C93 (`P_GenRound`): joins C69/C70 (`round_keeps`, `round_adds`) with the maximum clique of a correspondence graph (`corr_maximum`),
  as `GenProps` does for exact ends (C65).
* C94 (`P_Align`): the filter is a condition function (C66), the search returns a largest matching it accepts (`corr_maximum`), and the
  dictionary is that of C74; the point sets are lists over an ordered field with a rational value for each number.
* C95 (`P_AlignAll`): the contents of list(all_correspondences(k)) (C90) carried over to the dictionaries in the same way.
* C96, C97 (`P_Swap`): the builders' edge conditions (C42-C46) are read both ways; a maximum clique of a graph gives a clique of the transposed
  one, so neither maximum is larger. A copy of the second graph is an embedding with as many pairs as it has vertices.
* C98, C99 (`P_Change`): the answers of C15 and C30 for two graphs, compared through the images of cliques and degrees.
* C100 (`P_Contain`): the placement is a matching that C65 (C93 with rounding) compares with the answer; as many different indices as there are
  elements are all of them.
* C101 (`P_Units`): multiplying by a factor that the rounding respects commutes with every function of `MNW`, `MNWEnum` and `MNWApi` but
  the heuristic; C88 removes the reserved storage from the statement, C38 gives the weight when the heuristic is used before the complete search.
* C102 (`P_Scale`): the same for distances; the graphs are equal, so nothing is left to prove about searches. The order that std::sort gives
  to equal distances has to be the same in both runs (`only_compares`), because an interval may end between equal distances (C45).
* C103 (`P_Grow`): a clique of the smaller graph, moved by the injection, is a clique of the larger one and not lighter; what the depth-first
  search returns is at least as heavy as it (C38). Renumbering is the same twice.
* C104 (`P_Lone`): which clique a search returns (C79) and in which order cliques are listed (C68) is stated in terms of edges and degrees only.
  HeurCount computes the size the heuristic leaves, vertex by vertex, and shows that vertices without neighbours do not enter it.
  The same for NWGraph with C106, as long as the vertex that the search begins with stays the same.
* C106 (`P_NWFirst`): an invariant of the depth-first search says that the recorded clique comes before all cliques of its weight that have been
  dealt with, and that a clique still on the stack comes later; a clique is recorded only if it is strictly heavier (`nlead` in `NWStack`).
* C105 (`P_Copy`): C59, the contents of the exports (C05, C06, C60), what the loaders accept (C02, C04, C36), and C10/C82.
* C107 (`P_Depth`): `rec_search` of the model has a fuel argument, and each nested call uses one unit. `RecFacts` asks for as much fuel as the
  largest clique above the current one needs, so the run with D units and the run with as many units as the model of get_max_clique gives it both
  end, and more fuel never changes a result that is there (`rec_search_more`). `get_max_within` is get_max_clique with D units everywhere.
  For C107_needed `DepthNeed` follows runs that may run out of fuel: a call with f units and r vertices chosen records no clique of more than
  r + f - 1 vertices, so a run that ends with an answer of more vertices than D has not ended with D units.
* C108 (`P_Beside`): cliques of the union lie in one of the two graphs (`clique_split`), degrees stay what they are; the order of C68 decides
  the sequence of all_cliques. Vertex 1 of the second graph has another number in the union, so its cliques, missing from the list for the
  second graph alone (C30), are listed. A vertex without neighbours in front of a graph therefore makes all_cliques complete.
  `BesideLists` does the same for NWGraph, where weighted degrees stay what they are (C108_weighted_list). With the heuristic alone the size
  can be smaller (C108_heuristic_refuted, finding 55).
* C109 (`P_Join`): a clique of the joined graph is a clique of the first graph followed by one of the second, and conversely (`join_down`,
  `join_up`). For weights, single vertices have to be compared with pairs, hence the condition on vertices without neighbours.
* C110 (`P_Colour`): the colours of a clique are different, and so are the images of its vertices under a mapping; with C14, C15, C28, C37.
* C111 (`P_Show`): the invariants of histories (EnumApi, NWProps) say that the bit row of every vertex stores a clique with that vertex; the two loops over a row print it.
* C112 (`P_Greedy`): HeurFacts computes the size the heuristic leaves at each vertex (`hstep`), SearchFacts that no vertex could improve it at the end; GreedyFacts reads this as a greedy choice.
* C84-C86 (`P_NWEdge`): without edges no scratch memory is allocated, so that the first request for some reads past the end; the bound of a
  vertex is its own weight, so an iterator asks for memory exactly when a vertex other than the first reaches the threshold.
* C19, C21-C25, C27, C32-C34, C56 (`P_Refute`, `P_Search`): witnesses by computation, plus `_partial` theorems for what holds.
* C28-C31, C35 (`P_Enum`): every call of `next` removes exactly the item it returns from the pending set; well-founded measure on the
  frames gives termination. `C30_complete_partial` says exactly which cliques are missed (first vertex in degree order = vertex 1).
* C68 (`P_Order`; used for C34 and C35): candidates are taken from each frame in increasing order and the candidates of a frame are
  among those of the frame below it, so whatever is still pending differs from the clique just found first at a vertex the pending
  one lacks. A total order makes two complete lists equal, not just permutations of each other.
* C71, `C35_after_any_calls` (`P_Same`): two lists in the same order, one with elements of the other only, are a subsequence.
* C36-C40, C58 (`P_NW`): the same invariants over integer weights, where candidate sets are ordered by weighted degree. Enumeration:
  items are the cliques that reach the weight with their last vertex (`heavy_minimal`). All invariants about sets and memory hold for any
  rounding; those about weights are implications from "sums are exact". The potential of a frame is only bounded from below (`rises`).
* C72: numbers on a common grid of at most 2^53 steps are doubles, so that rounding to nearest satisfies `sums_exact` and `rises`.
* C73: C14 gives the vertices of the answer, division with remainder the pairs.
* C74: the sum of squared distances is a polynomial in the moments of the points, so n times the misfit of an orthogonal R and a translation t is a
  constant, less 2n<R, X>, plus the squared error in the centroid. <R, X> = <u' R vh', diag(s)>, and for a rotation R that is at most
  s1 + det(u vh) s2, the value for u D vh. For u D vh' and a vh that is not symmetric (a rotation by phi) it is cos(2 phi) times that. The numbers
  are those of a record `ofield` (an ordered field), so that the theorems cover the reals, where every X has a decomposition, and the rationals,
  in which the witnesses are computed; no axioms of the reals are needed.
* C75: both filters solve the same system; its solution is unique (C66), and the conversion to u64 respects equality of rationals.
* C76: with equal weights the two descriptions of what all_cliques lists (C35, C71) name the same cliques in the same order, and a list sorted by a
  strict order is determined by its members.
* C77: the object carries the number of times its graph was replaced, an iterator the number of the graph its states point into; a step that yields
  leaves a state behind (operational induction over `run2`, on any object).
* C78: a rotation is determined by its first column; arccos gives an angle with the right cosine and the square of the right sine, the
  branch on rotmat[1, 0] its sign. Cosine and sine are functions with three laws, satisfied over the rationals by the half-tangent parametrisation.
* C79: recursive search: before a call every larger clique that extends its path comes lexicographically before those that do not. Stack search:
  the frames bound every clique not yet examined, and a clique that extends the path by one candidate passed over without a push has no
  room for a second one, so that the last position is overwritten by later ones. Then over the roots: the first root searched is the one
  with the largest bound, lowest first (`b_first`), and a root is only searched for more than what the earlier ones have.
* C41, C42: the correspondence decoding; matched indices are pairwise distinct.
* C43-C48: the sorted distance table gives a window lemma for `binary_find2`; edges are characterised by it. Distances and epsilon are `Z`.
* C69, C70: a number that is rounded down lies just above a point of the grid of its binade, at most half a step; doubles of that size are on
  the grid, so that no double of the exact interval is cut off (`interval_contains`). Both ends are off by at most 3 * 2^-53 * (d + epsilon).
  The position reported does not depend on earlier calls, so the entry matched in excess on a side is a function of the distance.
* C49-C51: product graph adjacency, maximum common induced subgraph as maximum clique, Python formatting with dictionaries
  (`IsoDicts`: contents, when KeyError is raised, when the dictionaries are right).
* C59, C62 (`P_Keep`): every function on the way preserves the part of the object the exporters read (`skel`), proved for arbitrary
  objects without invariants; an exhausted enumerator looks only at that part. C60, C61: as for Graph. C63: the stored clique is part of
  the invariant of `NWStack`, which never replaces it by a lighter one.
* C52-C54: word-level lemmas; bit operations are proved with a frame condition (words outside the bitset are untouched).
* C64-C66 (`P_Gen`): the wrappers are reduced to the builders of `MExt`; a matching whose pairs are pairwise adjacent is a clique of the
  same size, so the maximum clique is a largest such matching. The filter may be undefined, so its builder takes a partial condition; a
  run that succeeds equals the run with any total extension. The transformation is characterised by what it does to the two points.
* C22, C23, C67 (`P_Cont`): invariant over a sequence of continued calls: every clique larger than the stored one is opened (first vertex
  in degree order) by a root not yet visited or by one of the roots at which a call was interrupted, one per such call.

## 4. Findings
Each is a theorem `..._refuted` (or a general theorem) about the model; file references are to `/repo/src/cliquematch`.

1. `all_cliques(k)`, k >= 2, never lists cliques whose first vertex in degree order is vertex 1: the enumerator starts with
   `current_vertex = 1` and `process_vertex` increments before looking (enumerate.cpp:27-36) (`C30_complete_refuted`; node-weighted version `C58_vertex_1_refuted`).
2. Every search of an edgeless graph reads outside `edge_bits` (`C12_edgeless_undefined`; `C50_edgeless_product_refuted`).
3. `set_bounds` resizes `edge_bits` after the vertices stored pointers into it; when the vector reallocates, all of them dangle
   (`C13_dangling_refuted`, K2 loaded by `from_edgelist`). Contrary to the comment at graph.cpp:123-125 it is not confined to small or dense
   graphs: a clique of c >= 512 vertices, one of them with c * c further neighbours, is another (`C13_large_refuted`).
4. `upper_bound` is not an upper bound for the answer (K5 with 2 answers 5 vertices, `C19_upper_bound_refuted`), and it stays in force
   after `reset_search` (`C21_reset_refuted`).
5. A `lower_bound` that cannot be met makes later calls fail (`C21_failed_bound_refuted`).
6. A timed-out search resumed with `continue_search` skips the interrupted root (`C22_interrupted_refuted`); `search_done` is set one
   vertex early (`C23_last_vertex_refuted`).
7. `use_heuristic=False, use_dfs=False` returns a list instead of raising for `lower_bound` <= 1, the default (`C24_no_search_refuted`).
8. `repr` prints the negation of `search_done` (`C25_repr_refuted`); `reset_search` on an unloaded graph dereferences null
   (`C27_reset_unloaded_refuted`).
9. With a binding `upper_bound` the heuristic changes the size of the answer (`C26_binding_bound_refuted`).
10. Enumerating after a search overwrites the stored best clique (`C32_enumerate_then_search_refuted`); abandoned iterators leak scratch
    memory (`C33_abandon_refuted`), and a single one is enough to make a timed search without heuristic read out of bounds
    (`C33_timed_refuted`); two interleaved iterators corrupt each other (`C34_interleave_refuted`).
11. Loading again keeps `search_done` and the resume position (`C56_rebuild_refuted`).
12. `n_edges` is wrong for repeated edges, self-loops and asymmetric matrices (`C07_*_refuted`); `to_edgelist` then writes out of bounds
    or returns uninitialised cells (`C06_*_refuted`), and `to_file` writes files that cannot be read back
    (`C08_wrong_count_refuted`) or are read back without some of the edges (`C08_lost_edge_refuted`; `C08_any_count` says which).
13. `from_file` accepts lines with vertex 0 (`C09_vertex_zero_refuted`); uses uninitialised variables for empty files and for files
    without edge lines (`C57_uninit_refuted`, `C57_no_lines_refuted`); declared counts near 2^64 wrap (`C57_count_wraps_refuted`);
    a vertex count of -1 is read as 2^64 - 1 and leads to an undefined shift (`C57_negative_count_refuted`).
14. `refer_from` shifts by 64 for every length divisible by 64 (`C53_defined_shift_refuted`).
15. `NWGraph.from_adjlist` reads past the end of the weights for every input it accepts (`C36_adjlist_undefined`).
16. `NWGraph.get_max_clique` returns vertex 0 when all weights are 0 (`C37_zero_weights_refuted`), misses a heavy isolated vertex
    (`C38_isolated_refuted`) and raises when `lower_bound` equals the optimum (`C38_tight_bound_refuted`).
17. `edges_from_relsets` also matches the two table entries next to the interval (`C44_extra_edge_refuted`) and misses equal distances
    at the boundary (`C45_*_refuted`); a second set of one element is read out of bounds (`C48_always_out_of_bounds`).
18. `build_edges_condition_only` adds the reversed match without asking the condition (`C47_condition_only_refuted`) and loses pairs the
    condition accepts only in decreasing order (`C47_lost_edge_refuted`).
19. `IsoGraph._format_correspondence` builds the second dictionary from the first set's indices: KeyError or missing neighbours
    (`C51_*_refuted`).
20. Running the node-weighted heuristic again can replace the stored clique by a lighter one (`C63_heuristic_refuted`): it prunes with the
    weight of the next neighbour (`neighbors[j]` after `j++`). `NWGraph.get_correspondence` raises about vertex 0 when all weights are 0
    (`C61_sentinel_refuted`).
21. The wrappers keep and pass `d2` only if `d1` is given; a `d2` given alone is ignored without a message (`C64_d2_ignored_refuted`).
22. The mask filter converts transformed control points to `u64`: a coordinate in (-1, 0) becomes 0 and counts as inside the image
    (`C66_left_of_canvas_refuted`); one at or below -1 (or from 2^64 on) is undefined behaviour (`C66_always_undefined`). Two equal points of
    set 2 score 0 and pass when `percentage <= 0` (`C66_same_points`), while the Python `MaskFilter` rejects them.
23. Every continued call first searches the root of the best clique again; with a time limit shorter than that search, repeating the call
    until `search_done` never ends (`C67_progress_refuted`).
24. The lower end of the interval can be rounded up onto a distance lying strictly inside it; repeated occurrences of it are then lost as in 17:
    distances 10 and 9.9 with epsilon 0.1 (`C69_lost_refuted`).
25. `NWStackDFS` overwrites `vertices[cur].mcs` with the weight of the clique it has just stored (nw_dfs.cpp:129) and `NWCliqueEnumerator` skips
    roots whose `mcs` is below W (nw_enumerate.cpp:13). If the search stopped early because of `upper_bound` there may be heavier cliques at
    that root, and with a negative weight a part of the stored clique may be heavier: `all_cliques(W)` no longer lists them, also after
    `reset_search` (`C71_bound_refuted`, `C71_negative_refuted`).
26. Node weights that are not on a common grid: `get_max_clique` prefers {0.3, 0.3} to {0.3, 0.2, 0.1}, which is heavier before rounding
    (`C72_heaviest_refuted`). `clique_weight` is updated by adding and subtracting (nw_dfs.cpp:149, 179), so that it drifts; the answer can have
    a smaller `get_clique_weight` than another clique (`C72_drift_refuted`). `get_clique_weight` depends on the order of the list
    (`C72_order_refuted`); `all_cliques(W)` lists lighter cliques and omits heavy ones (`C72_threshold_refuted`, `C72_complete_refuted`).

27. `numpy.linalg.svd` returns u, s and the *transposed* v. `AlignGraph._format_correspondence` calls them V, s, U and computes
    `V D U.T` instead of `V D U` (aligngraph.py:131-133). The result is always a rotation and sends centroid to centroid, but it sends the points to
    their partners only if the third factor happens to be symmetric, i.e. a reflection or +-I (`C74_exact`); with another, equally valid,
    decomposition even a set matched with itself is turned (`C74_refuted`). Which one numpy returns depends on LAPACK and is not modelled.
28. `get_correspondence` ignores len1 and divides by len2: indices from len1 on can be returned (`C73_range_refuted`), and len2 = 0 is undefined
    behaviour as soon as there is a clique (`C73_zero_undefined`). The wrappers pass the lengths at the time of the call.
29. `MaskFilter` stores the points in float32 arrays (aligngraph.py:32-34), the C++ filter uses doubles: from 2^24 on even integer pixel coordinates
    are moved, and the two disagree (`C75_float32_refuted`). They also disagree on two equal points of set 2 when `percentage <= 0`
    (`C75_same_points_refuted`).
30. A NWGraph with all weights 1 is not quite a Graph: `all_cliques(1)` lists the vertices of a Graph and the edges of the NWGraph
    (`C76_size_1_refuted`); from size 2 on the sequences are the same.
31. An iterator keeps pointers into the bitset storage of the graph it started on, but no reference to that graph (pyiterator.h:16-18). After
    `build_edges` the next step of any iterator that has yielded a clique of two or more vertices uses freed memory, unless the new graph ends before
    the iterator's position (`C77_undefined`, `C77_exact`). An iterator that has ended starts again, in the middle, when the new graph is larger
    (`C77_ended_refuted`).
32. `AlignGraph` multiplies rows by rotmat, and rotmat is the matrix of theta for columns: the points are turned by -theta
    (`C78_direction`), so that turning S1 by the theta returned and shifting it by (dx, dy) does not give S2 (`C78_refuted`). If rounding makes
    rotmat[0, 0] slightly less than -1, arccos is NaN and theta is 0 instead of half a turn (`C78_half_turn`).
33. The comments in dfs_stack.cpp and dfs_recurse.cpp say that both implement the same algorithm, but they break ties differently: on a ring of five
    vertices the timed search returns [1, 2], the untimed one [1, 5] (`C79_same_algorithm_refuted`). `StackDFS` reaches the last vertex of a
    clique by overwriting it with later ones, `RecursionDFS` keeps the first (`C79_stack_first`, `C79_recursion_first`).
34. `NWGraph.get_max_clique` has the default bounds of `Graph`, 1 and 65535, though they are weights: without arguments it raises when every
    clique weighs less than 1 (`C80_light`, any graph and history) and stops at the first clique of weight 65535 or more (`C80_heavy_refuted`).
35. NWGraph: two iterators left at triangles are enough to make the next search read out of bounds when there is no larger clique
    (`C81_abandon_refuted`), and iterators advanced in turn miss cliques (`C81_interleave_refuted`).
36. search_done does not say that the depth-first search has been completed (user.rst:78): a later search without use_dfs makes it False
    again, on Graph (without continue_search) and NWGraph (`C83_completed_refuted`).
37. Searching an NWGraph without edges reads past the end of its memory, and so does a loop over all_cliques(T) unless every vertex but the
    first is lighter than T (`C84_search_refuted`, `C84_search`, `C84_iterate`).
38. NWGraph.get_max_clique without heuristic and depth-first search returns a single vertex; if no weight is positive and lower_bound is
    at most 0 it returns [0], which is no vertex (`C85_no_search_refuted`, `C85_sentinel_refuted`). reset_search and get_vertex_data on an
    unloaded NWGraph dereference null (`C86_reset_unloaded_refuted`).
39. NWGraph.get_max_clique: upper_bound only ends the search, the answer can be heavier while lighter cliques within the bounds exist
    (`C87_upper_refuted`); a vertex without neighbours that weighs exactly lower_bound is returned, a clique of that weight is not
    (`C87_lower_refuted`, `C38_tight_bound_refuted`).
40. all_correspondences inherits the gap of all_cliques: for two equal sets of three points all_correspondences(3) is empty, while
    get_correspondence matches every point with itself (`C90_identity_missing_refuted`).
41. IsoGraph.all_correspondences calls `len()` on a Graph, which has none, and always raises TypeError (`C90_isograph_refuted`).
42. The ends of the interval are computed as `a - epsilon` and then `+ 2 * epsilon`, both rounded: a larger epsilon can lower the upper
    end, and lose a pair at exactly the same distance (`C92_rounding_refuted`, distances of 2^54 + 4 units and epsilon 1 and 2).
43. The pairs lost to rounding (finding on C69) make the correspondence smaller: of three elements at distance 10 and three at distance
    9.9, with epsilon 0.1, two are matched (`C93_smaller_refuted`).
44. AlignGraph.all_correspondences(3) of a triangle and its image under a quarter turn lists one alignment, which pairs the corners the
    wrong way round; the right one, which get_correspondence returns, is missing (`C95_missing_refuted`; finding 40 again).
45. Exchanging S1 and S2 changes the size of the correspondence: distances 6, 7, 8 and 6, 7, 10 with epsilon 1 give 3 pairs one way and 2
    the other (`C96_metric_refuted`), IsoGraph of a triangle and a path gives 3 and 2 (`C96_iso_refuted`).
46. IsoGraph matches vertices that are joined in G1 with vertices that are not joined in G2, so what it finds is not an isomorphism of the
    subgraphs spanned by the matched vertices (`C97_induced_refuted`).
47. Which cliques all_cliques lists depends on the numbers of the vertices (`C98_listed_refuted`), and adding an edge can remove a clique
    from the list (`C99_listed_refuted`); both follow from the gap at vertex 1 (C30).
48. Three equidistant elements matched with themselves and epsilon 0 give two pairs (`C100_epsilon_refuted`); so they do for a positive
    epsilon below half a unit in the last place of the distance (`C100_rounding_refuted`).
49. The heuristic of NWGraph compares the number of candidates with the weight of the best clique (nw_heuristic.cpp:70). Its result depends on
    the unit of the weights: the same graph with all weights times 16 gives a clique of two vertices instead of three (`C101_heuristic_refuted`).
50. With doubles the unit of distances matters at the rounded end of an interval: multiplying 2^53 + 12, 2^53 + 8 and epsilon 3 by three,
    which rounds none of them, removes all edges (`C102_factor_refuted`).
51. Raising one weight from 5 to 10 makes the heuristic of NWGraph return a clique of weight 11 instead of 15 (`C103_heuristic_refuted`), and
    a triangle that all_cliques(11) lists at weight 12 is no longer listed at weight 15, because two of its vertices already reach 11
    (`C103_listed_refuted`). How many cliques all_cliques(T) lists depends on the numbers of the vertices: three or two for the same triangle
    (`C103_renumber_listed_refuted`), because only the vertex added last is left out in the test whether a clique is listed.
52. `from_adjlist(n_vertices, n_edges, to_adjlist())` raises for a graph loaded from an edge list that names an edge twice, because n_edges
    counts it twice (`C105_adjlist_refuted`).
53. A heavy vertex without neighbours changes which of two equally heavy cliques NWGraph returns: the search begins with that vertex instead
    of the one whose later neighbours weigh most (`C104_weighted_search_refuted`). The heuristic also changes it (`C106_heuristic_refuted`).
54. `graph::disp` prints "Vertex v has k edges" where k is one more than the number of edges (`C111_edges_refuted`), and leaves out
    vertices all of whose neighbours come earlier in the search order (`C111_every_vertex_refuted`). It writes one half to cout, the other to cerr.
    `nwgraph::disp` prints the bound of the vertex as the weight of its clique (`C111_weight_refuted`).
55. The heuristic of Graph skips a vertex if the number of its later neighbours is not larger than the best clique so far (heuristic.cpp:77),
    although the vertex itself also counts. In a graph made of three vertices joined to three others and a separate triangle, use_dfs=False
    returns two vertices (`C112_greedy_refuted`), although it finds the triangle when that is alone (`C108_heuristic_refuted`). It never loses more than one vertex this way (`C112_greedy_partial`).
56. One heavy vertex without neighbours makes the heuristic of NWGraph return a clique of weight 4 instead of one of weight 30: it no longer
    begins with the heavy triangle, and after the light edge it skips the triangle because it has only two candidates, fewer than the
    weight of the edge (`C104_weighted_heuristic_refuted`, see 49).

Observed in the model, without a theorem of its own: `binary_find` on an empty range forms `a - 1`. Observed in the text only: `AlignGraph` documents that S1 and S2 are converted to float64, but
`GenGraph.__init__` stores them as they are, so that integer arrays match no overload.

## 5. Mutation testing
`tools/mutate.py` applies one edit at a time to a built copy of the development, rebuilds with `make -k` and records which theorems no
longer go through. Results are in `seeded/LOG.jsonl`.
Many entries come from quick runs: only the files up to the first broken lemmas are rebuilt, and the theorems that rest on those lemmas are
counted as failed. Entries marked as generated are mechanical edits (constants, comparisons, branches) of all model files. Edits that
survived and broke a claim led to tighter theorems, among them those that name all_cliques instead of the enumerator it makes (C28, C30,
C31, C42, C65), C52_clear and C52_block_empty, C107_needed, and the theorems about iterators that keep their lengths (C61, C90, C95). For the other survivors the log gives the reason why no
claim seems to be broken; these reasons come from reading the model and are not proved, except for `skip_line` (FileShort). Two builds ran on and were stopped; for them the
log says what the edited definition evaluates to.
