(** P_Keep: what no call changes (C59, C62), the exporters, correspondences and repeated searches of NWGraph (C60, C61, C63). *)
From Verif Require Import Base MUtils MGraph MHeur MEnum MApi MExt MFile MNW MNWEnum MNWApi MNWCorr Spec SpecDec SpecNW SpecKeep SearchProps Samples SpecRound NWRoundFacts NWSamples KeepProps NWMono KeepSamples.
From Coq Require Import Sorting.Sorted.
Local Open Scope nat_scope.

(** * C59: nothing is assumed about the object, the arguments, the environment or the outcome of the calls. *)
Theorem C59_graph : forall p q, calls p q ->
  (forall i, vertex_neighbors q i = vertex_neighbors p i) /\ to_matrix q = to_matrix p /\ to_adjlist q = to_adjlist p
  /\ to_edgelist q = to_edgelist p /\ (forall opens, to_file opens q = to_file opens p).
Proof. exact calls_exports. Qed.
Print Assumptions C59_graph.

Theorem C59_nwgraph : forall rnd p q, ncalls rnd p q ->
  (forall i, nw_vertex_data q i = nw_vertex_data p i) /\ nw_all_weights q = nw_all_weights p
  /\ (forall c, nw_get_clique_weight rnd q c = nw_get_clique_weight rnd p c)
  /\ nw_to_matrix q = nw_to_matrix p /\ nw_to_adjlist q = nw_to_adjlist p /\ nw_to_edgelist q = nw_to_edgelist p.
Proof. exact ncalls_exports. Qed.
Print Assumptions C59_nwgraph.

(** A search and one step of an iterator. *)
Example C59_example : exists q1 q2 en2, get_max_clique (run_env None) sample 1 DEFAULT_UB true true false = Ok (q1, Ret [1; 2; 3; 4])
  /\ next_clique true q1 (new_enum 3) = Ok (q2, en2, Ret [2; 3; 4]) /\ calls sample q2 /\ q2 <> sample.
Proof. exact keep_example. Qed.

(** * C60 *)
Theorem C60_adjlist : forall rnd p n adj w, nmade rnd p n adj w -> 1 <= n ->
  ends_with (nw_to_adjlist p) (fun r => exists A, r = Ret A /\ length A = n + 1 /\ forall v u, v <= n -> (In u (nth v A []) <-> adj v u)).
Proof. exact nmade_to_adjlist. Qed.
Print Assumptions C60_adjlist.

Theorem C60_matrix : forall rnd p n adj w, nmade rnd p n adj w -> 1 <= n ->
  ends_with (nw_to_matrix p) (fun r => exists M, r = Ret M /\ length M = n /\ (forall i, i < n -> length (nth i M []) = n)
     /\ forall u v, 1 <= u <= n -> 1 <= v <= n -> (nth (v - 1) (nth (u - 1) M []) false = true <-> adj u v)).
Proof. exact nmade_to_matrix. Qed.
Print Assumptions C60_matrix.

(** to_edgelist needs the right edge count, as for Graph (C06, C07). *)
Theorem C60_edgelist_partial : forall rnd p n adj w, nmade rnd p n adj w -> 1 <= n -> (forall l, edges_of adj l -> q_nedges p = length l) ->
  ends_with (nw_to_edgelist p) (fun r => exists l, r = Ret (map Some l) /\ length l = q_nedges p /\ edges_of adj l /\ StronglySorted lexless l).
Proof. exact nmade_to_edgelist. Qed.
Print Assumptions C60_edgelist_partial.

Theorem C60_count_edgelist : forall rnd rows n w p, fits (n + 1 + 2 * length rows) -> nw_from_edgelist rnd rows n w = Ok (Ret p) ->
  forall l, edges_of (adj_rows rows) l -> (q_nedges p = length l <-> distinct_rows rows).
Proof. exact nw_edgelist_nedges. Qed.
Print Assumptions C60_count_edgelist.

Theorem C60_count_matrix : forall rnd n M w p, fits (1 + 2 * (n * n)) -> (forall i j, i < n -> j < n -> M i j = M j i) ->
  nw_from_matrix rnd n n M w = Ok (Ret p) -> forall l, edges_of (adj_matrix n M) l -> q_nedges p = length l.
Proof. exact nw_matrix_nedges. Qed.
Print Assumptions C60_count_matrix.

(** A repeated row leaves an uninitialised row; an asymmetric matrix makes the exporter write outside its array. *)
Theorem C60_edgelist_refuted : exists rows n w p M p',
  nw_from_edgelist half_even rows n w = Ok (Ret p) /\ nw_to_edgelist p = Ok (Ret [Some (1, 2); None])
  /\ nw_from_matrix half_even n n M w = Ok (Ret p') /\ nw_to_edgelist p' = UB OobWrite.
Proof.
  exists [(1, 2); (2, 1)], 2, [1; 1]%Z. eexists. exists (fun i j => (i =? 0) && (j =? 1)). eexists. split; [vm_compute; reflexivity|].
  split; [vm_compute; reflexivity|]. split; vm_compute; reflexivity.
Qed.
Print Assumptions C60_edgelist_refuted.

Example C60_example : nmade half_even wsample 6 (adj_rows wrows) wwts
  /\ nw_to_adjlist wsample = Ok (Ret [[]; [2; 3; 4]; [1; 3; 4]; [1; 2; 4]; [1; 2; 3; 5; 6]; [4; 6]; [4; 5]])
  /\ nw_to_edgelist wsample = Ok (Ret (map Some [(1, 2); (1, 3); (1, 4); (2, 3); (2, 4); (3, 4); (4, 5); (4, 6); (5, 6)])).
Proof. split; [exact wsample_made|]. split; vm_compute; reflexivity. Qed.

(** * C61 *)
(** Missing: weights that are all 0 or negative (C61_correspondence_any, C61_sentinel_refuted) and sums that are rounded. *)
Theorem C61_correspondence_partial : forall rnd p n adj w, nmade rnd p n adj w -> has_edge adj -> nstorage_live p ->
  forall q e n2 lb ub heur dfs, sums_exact rnd w -> nonnegative w -> (exists x, In x w /\ (0 < x)%Z) -> nhistory rnd p q -> npermutes e -> 1 <= n2 ->
  ends_with (nw_get_correspondence rnd e q n2 lb ub heur dfs) (fun '(_, r) => match r with
     | Ret (a, b) => exists c, clique n adj c /\ (lb <= weight w c)%Z /\ decodes n2 c (a, b)
     | Raise x => x = EBounds
     end).
Proof. exact nw_correspondence_positive. Qed.
Print Assumptions C61_correspondence_partial.

(** Any weights: the only other outcome is the exception about vertex 0. *)
Theorem C61_correspondence_any : forall rnd p n adj w, nmade rnd p n adj w -> has_edge adj -> nstorage_live p ->
  forall q e n2 lb ub heur dfs, nhistory rnd p q -> npermutes e -> 1 <= n2 ->
  ends_with (nw_get_correspondence rnd e q n2 lb ub heur dfs) (fun '(_, r) => match r with
     | Ret (a, b) => exists c, clique n adj c /\ (sums_exact rnd w -> lb <= weight w c)%Z /\ decodes n2 c (a, b)
     | Raise x => x = EBounds \/ x = ESentinel
     end).
Proof. exact nw_correspondence. Qed.
Print Assumptions C61_correspondence_any.

(** In a graph whose edges join matches of different elements, such pairs match every element at most once. *)
Theorem C61_one_to_one : forall n1 n2 adj c a b, one_to_one n2 adj -> clique (n1 * n2) adj c -> decodes n2 c (a, b) -> matching n1 n2 a b.
Proof. exact decodes_matching. Qed.
Print Assumptions C61_one_to_one.

Theorem C61_all_correspondences : forall rnd p n adj w, nmade rnd p n adj w -> has_edge adj -> nstorage_live p -> forall q e T lr n1 n2, nhistory rnd p q -> 1 <= n2 ->
  exists en q' en' cs l, nw_corr_iterator e q n1 n2 T = Ret en
    /\ (forall fuel, length cs < fuel -> nw_corr_drain rnd fuel lr n2 q en = Ok (q', en', Ret cs))
    /\ NoDup l /\ Forall2 (decodes n2) l cs /\ forall d, In d l -> clique n adj d /\ 2 <= length d /\ (sums_exact rnd w -> T <= weight w d)%Z.
Proof. exact nw_all_correspondences. Qed.
Print Assumptions C61_all_correspondences.

(** With all weights 0 the search fails although every clique has the weight asked for. *)
Theorem C61_sentinel_refuted : exists p n adj w e c, nmade half_even p n adj w /\ has_edge adj /\ nstorage_live p /\ sums_exact half_even w /\ nonnegative w /\ nsorts e
  /\ clique n adj c /\ 2 <= length c /\ (0 <= weight w c)%Z /\ answer (nw_get_correspondence half_even e p 3 0 100 true true) = Ok (Raise ESentinel).
Proof. exact sentinel_example. Qed.
Print Assumptions C61_sentinel_refuted.

(** Vertices 1..6 as matches of 2 with 3 elements: (0,0) (0,1) (0,2) (1,0) (1,1) (1,2). *)
Example C61_example : nmade half_even wmatch 6 (adj_rows wmatch_rows) wwts /\ has_edge (adj_rows wmatch_rows) /\ nstorage_live wmatch /\ one_to_one 3 (adj_rows wmatch_rows)
  /\ sums_exact half_even wwts /\ nonnegative wwts /\ (exists x, In x wwts /\ (0 < x)%Z) /\ npermutes nw_env
  /\ answer (nw_get_correspondence half_even nw_env wmatch 3 0 100 true true) = Ok (Ret ([0; 1], [0; 1])).
Proof. exact wmatch_example. Qed.

(** * C62: on a loaded object after any calls (here and below: also partial and interleaved iterators, searches, resets),
    an iterator that has stopped once stops again whenever it is asked, whatever calls were made meanwhile, and changes nothing. *)
Theorem C62_graph : forall o n adj p lr en p' en', made o n adj -> calls o p -> next_clique lr p en = Ok (p', en', Raise EStopIteration) ->
  forall lr' q, calls p' q -> next_clique lr' q en' = Ok (q, en', Raise EStopIteration).
Proof. exact exhausted_stays. Qed.
Print Assumptions C62_graph.

Theorem C62_nwgraph : forall rnd o n adj w p lr en p' en', nmade rnd o n adj w -> ncalls rnd o p -> nw_next_clique rnd lr p en = Ok (p', en', Raise EStopIteration) ->
  forall lr' q, ncalls rnd p' q -> nw_next_clique rnd lr' q en' = Ok (q, en', Raise EStopIteration).
Proof. exact nexhausted_stays. Qed.
Print Assumptions C62_nwgraph.

Example C62_example : exists p1 en1 p2 en2 p3 en3, made sample 8 (adj_rows sample_rows)
  /\ next_clique true sample (new_enum 3) = Ok (p1, en1, Ret [2; 3; 4]) /\ next_clique true p1 en1 = Ok (p2, en2, Ret [5; 6; 7])
  /\ calls sample p2 /\ next_clique true p2 en2 = Ok (p3, en3, Raise EStopIteration).
Proof. exact exhausted_example. Qed.

(** * C63 *)
(** Only get_max_clique calls since loading: a call without the heuristic never answers with something lighter than the
    answer of the call before it. *)
Theorem C63_without_heuristic_partial : forall rnd p n adj w, nmade rnd p n adj w -> has_edge adj -> nstorage_live p -> sums_exact rnd w ->
  forall q e1 lb1 ub1 h1 d1 q1 c1 e2 lb2 ub2 d2 q2 c2, ngets rnd p q -> npermutes e1 -> npermutes e2 ->
  nw_get_max_clique rnd e1 q lb1 ub1 h1 d1 = Ok (q1, Ret c1) -> nw_get_max_clique rnd e2 q1 lb2 ub2 false d2 = Ok (q2, Ret c2) ->
  2 <= length c1 -> (weight w c1 <= weight w c2)%Z.
Proof. exact repeat_dfs. Qed.
Print Assumptions C63_without_heuristic_partial.

(** The same with the heuristic, if the second call is a complete search and no upper bound excluded a clique. *)
Theorem C63_complete_partial : forall rnd p n adj w, nmade rnd p n adj w -> has_edge adj -> nstorage_live p -> sums_exact rnd w ->
  forall q e1 lb1 ub1 h1 d1 q1 c1 e2 lb2 ub2 h2 q2 c2, nonnegative w -> nunhurried rnd n adj w p q -> npermutes e1 -> npermutes e2 ->
  all_within n adj w ub1 -> all_within n adj w ub2 ->
  nw_get_max_clique rnd e1 q lb1 ub1 h1 d1 = Ok (q1, Ret c1) -> nw_get_max_clique rnd e2 q1 lb2 ub2 h2 true = Ok (q2, Ret c2) ->
  2 <= length c1 -> (weight w c1 <= weight w c2)%Z.
Proof. exact repeat_complete. Qed.
Print Assumptions C63_complete_partial.

(** The heuristic alone replaces a clique of weight 3 by one of weight 2. *)
Theorem C63_heuristic_refuted : exists p n adj w e q1 c1 q2 c2, nmade half_even p n adj w /\ has_edge adj /\ nstorage_live p /\ sums_exact half_even w /\ nonnegative w /\ nsorts e
  /\ nw_get_max_clique half_even e p 0 100 true false = Ok (q1, Ret c1) /\ nw_get_max_clique half_even e q1 0 100 true false = Ok (q2, Ret c2)
  /\ 2 <= length c1 /\ (weight w c2 < weight w c1)%Z.
Proof. exact lighter_example. Qed.
Print Assumptions C63_heuristic_refuted.

Example C63_example : exists q1 c1 q2 c2, nmade half_even wlight 7 (adj_rows wlight_rows) wlight_wts /\ has_edge (adj_rows wlight_rows) /\ nstorage_live wlight
  /\ sums_exact half_even wlight_wts /\ nonnegative wlight_wts /\ npermutes nw_env
  /\ nw_get_max_clique half_even nw_env wlight 0 100 true false = Ok (q1, Ret c1) /\ nw_get_max_clique half_even nw_env q1 0 100 false true = Ok (q2, Ret c2)
  /\ 2 <= length c1 /\ weight wlight_wts c1 = 3%Z /\ weight wlight_wts c2 = 4%Z.
Proof. exact heavier_example. Qed.
