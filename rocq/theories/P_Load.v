(** P_Load: loading and exporting graphs (C01-C07, C10, C13). *)
From Verif Require Import Base MBits MUtils MGraph MHeur MApi MNW MNWEnum MNWApi SpecRound Spec SpecNW SpecBits SpecKeep LoadProps LiveFacts KeepProps HubFacts.
From Coq Require Import Sorting.Sorted.
Local Open Scope nat_scope.

(** * C01 *)
Theorem C01_edgelist_neighbors : forall rows n p,
  fits (n + 1 + 2 * length rows) -> from_edgelist rows n = Ok (Ret p) ->
  p_nvert p = n /\ forall v, 1 <= v <= n ->
  ends_with (vertex_neighbors p v) (fun r => exists l, r = Ret l /\ StronglySorted lt l
     /\ forall u, In u l <-> u <> v /\ (In (u, v) rows \/ In (v, u) rows)).
Proof. exact edgelist_neighbors. Qed.
Print Assumptions C01_edgelist_neighbors.

Example C01_example : exists p, from_edgelist [(3, 1); (2, 2); (1, 3); (4, 3)] 5 = Ok (Ret p)
  /\ vertex_neighbors p 3 = Ok (Ret [1; 4]) /\ vertex_neighbors p 2 = Ok (Ret []).
Proof. eexists. split; [vm_compute; reflexivity|]. split; vm_compute; reflexivity. Qed.

(** * C02 *)
Theorem C02_edgelist_accepts : forall rows n, fits (n + 1 + 2 * length rows) ->
  ends_with (from_edgelist rows n)
    (fun r => (rows_ok n rows /\ exists p, r = Ret p) \/ (~ rows_ok n rows /\ exists e, r = Raise e)).
Proof. exact edgelist_accepts. Qed.
Print Assumptions C02_edgelist_accepts.

Example C02_example : from_edgelist [(1, 2); (0, 1)] 3 = Ok (Raise EVertexZero)
  /\ from_edgelist [(1, 2); (2, 4)] 3 = Ok (Raise EVertexTooBig)
  /\ exists p, from_edgelist [(1, 2); (2, 3)] 3 = Ok (Ret p).
Proof. repeat split; try (vm_compute; reflexivity). eexists. vm_compute. reflexivity. Qed.

(** * C03 *)
Theorem C03_matrix_not_square : forall rows cols M, rows <> cols -> from_matrix rows cols M = Ok (Raise ENotSquare).
Proof. exact matrix_square. Qed.
Print Assumptions C03_matrix_not_square.

Theorem C03_matrix_neighbors : forall n M, fits (1 + 2 * (n * n)) ->
  ends_with (from_matrix n n M) (fun r => exists p, r = Ret p /\ p_nvert p = n /\ forall v, 1 <= v <= n ->
    ends_with (vertex_neighbors p v) (fun r => exists l, r = Ret l /\ StronglySorted lt l
       /\ forall u, In u l <-> u <> v /\ 1 <= u <= n /\ (M (u - 1) (v - 1) = true \/ M (v - 1) (u - 1) = true))).
Proof. exact matrix_neighbors. Qed.
Print Assumptions C03_matrix_neighbors.

Example C03_example : exists p, from_matrix 3 3 (fun i j => (i =? 0) && (j =? 2)) = Ok (Ret p)
  /\ vertex_neighbors p 3 = Ok (Ret [1]) /\ vertex_neighbors p 1 = Ok (Ret [3]).
Proof. eexists. split; [vm_compute; reflexivity|]. split; vm_compute; reflexivity. Qed.

(** * C04 *)
Theorem C04_adjlist_accepts : forall n m A, fits (length A + list_sum (map (@length nat) A)) ->
  ends_with (from_adjlist n m A)
    (fun r => (sets_ok n m A /\ exists p, r = Ret p) \/ (~ sets_ok n m A /\ exists e, r = Raise e)).
Proof. exact adjlist_accepts. Qed.
Print Assumptions C04_adjlist_accepts.

Theorem C04_adjlist_neighbors : forall n m A p,
  fits (length A + list_sum (map (@length nat) A)) -> real_sets A -> from_adjlist n m A = Ok (Ret p) ->
  p_nvert p = n /\ p_nedges p = m /\ forall v, v <= n -> vertex_neighbors p v = Ok (Ret (nth v A [])).
Proof. exact adjlist_neighbors. Qed.
Print Assumptions C04_adjlist_neighbors.

Example C04_example : real_sets [[]; [2; 3]; [1]; [1]]
  /\ (exists p, from_adjlist 3 2 [[]; [2; 3]; [1]; [1]] = Ok (Ret p))
  /\ from_adjlist 3 2 [[]; [2; 3]; [1]; []] = Ok (Raise EBadEdge)
  /\ from_adjlist 3 1 [[]; [2; 3]; [1]; [1]] = Ok (Raise EEdgeCount).
Proof. split; [repeat constructor|]. split; [eexists; vm_compute; reflexivity|]. split; vm_compute; reflexivity. Qed.

(** * C05 *)
Theorem C05_to_adjlist : forall p n adj, made p n adj -> 1 <= n ->
  ends_with (to_adjlist p) (fun r => exists A, r = Ret A /\ length A = n + 1 /\ nth 0 A [] = []
     /\ forall v, v <= n -> vertex_neighbors p v = Ok (Ret (nth v A [])) /\ forall u, In u (nth v A []) <-> adj v u).
Proof. exact made_to_adjlist. Qed.
Print Assumptions C05_to_adjlist.

Theorem C05_to_matrix : forall p n adj, made p n adj -> 1 <= n ->
  ends_with (to_matrix p) (fun r => exists M, r = Ret M /\ length M = n /\ (forall i, i < n -> length (nth i M []) = n)
     /\ forall u v, 1 <= u <= n -> 1 <= v <= n -> (nth (v - 1) (nth (u - 1) M []) false = true <-> adj u v)).
Proof. exact made_to_matrix. Qed.
Print Assumptions C05_to_matrix.

Theorem C05_adjlist_round_trip : forall n m A p,
  fits (length A + list_sum (map (@length nat) A)) -> real_sets A -> 1 <= n ->
  from_adjlist n m A = Ok (Ret p) -> to_adjlist p = Ok (Ret A).
Proof. exact adjlist_round_trip. Qed.
Print Assumptions C05_adjlist_round_trip.

Theorem C05_matrix_round_trip : forall n M p, fits (1 + 2 * (n * n)) -> 1 <= n ->
  (forall i j, i < n -> j < n -> M i j = M j i) -> (forall i, i < n -> M i i = false) ->
  from_matrix n n M = Ok (Ret p) ->
  to_matrix p = Ok (Ret (map (fun i => map (M i) (seq 0 n)) (seq 0 n))).
Proof. exact matrix_round_trip. Qed.
Print Assumptions C05_matrix_round_trip.

Example C05_example : exists p, from_adjlist 3 2 [[]; [2; 3]; [1]; [1]] = Ok (Ret p)
  /\ to_adjlist p = Ok (Ret [[]; [2; 3]; [1]; [1]])
  /\ to_matrix p = Ok (Ret [[false; true; true]; [true; false; false]; [true; false; false]]).
Proof. eexists. split; [vm_compute; reflexivity|]. split; vm_compute; reflexivity. Qed.

(** * C06: true whenever the counter of C07 is right; false otherwise. *)
Theorem C06_to_edgelist_partial : forall p n adj, made p n adj -> 1 <= n ->
  (forall l, edges_of adj l -> p_nedges p = length l) ->
  ends_with (to_edgelist p)
    (fun r => exists l, r = Ret (map Some l) /\ length l = p_nedges p /\ edges_of adj l /\ StronglySorted lexless l).
Proof. exact made_to_edgelist. Qed.
Print Assumptions C06_to_edgelist_partial.

(** What happens in every case: the edges in order, then uninitialised rows; or a write outside the array. *)
Theorem C06_exact : forall p n adj, made p n adj -> 1 <= n -> exists l, edges_of adj l /\ StronglySorted lexless l
  /\ (length l <= p_nedges p -> to_edgelist p = Ok (Ret (map Some l ++ repeat None (p_nedges p - length l))))
  /\ (p_nedges p < length l -> to_edgelist p = UB OobWrite).
Proof. exact to_edgelist_exact. Qed.
Print Assumptions C06_exact.

Example C06_example : exists p, from_edgelist [(3, 1); (2, 3)] 3 = Ok (Ret p)
  /\ to_edgelist p = Ok (Ret [Some (1, 3); Some (2, 3)]).
Proof. eexists. split; vm_compute; reflexivity. Qed.

(** A repeated row leaves an uninitialised row in the result. *)
Theorem C06_uninitialised_refuted : exists rows n p,
  from_edgelist rows n = Ok (Ret p) /\ to_edgelist p = Ok (Ret [Some (1, 2); None]).
Proof. exists [(1, 2); (2, 1)], 2. eexists. split; vm_compute; reflexivity. Qed.
Print Assumptions C06_uninitialised_refuted.

(** An asymmetric matrix makes to_edgelist write outside its array. *)
Theorem C06_out_of_bounds_refuted : exists n M p,
  from_matrix n n M = Ok (Ret p) /\ to_edgelist p = UB OobWrite.
Proof. exists 2, (fun i j => (i =? 0) && (j =? 1)). eexists. split; vm_compute; reflexivity. Qed.
Print Assumptions C06_out_of_bounds_refuted.

(** * C07: for an edge list, right exactly when the rows are distinct pairs of distinct vertices. *)
Theorem C07_edgelist_count_iff : forall rows n p,
  fits (n + 1 + 2 * length rows) -> from_edgelist rows n = Ok (Ret p) ->
  forall l, edges_of (adj_rows rows) l -> (p_nedges p = length l <-> distinct_rows rows).
Proof. exact edgelist_nedges. Qed.
Print Assumptions C07_edgelist_count_iff.

(** For a matrix: right when the matrix is symmetric. *)
Theorem C07_matrix_count_partial : forall n M p, fits (1 + 2 * (n * n)) ->
  (forall i j, i < n -> j < n -> M i j = M j i) -> from_matrix n n M = Ok (Ret p) ->
  forall l, edges_of (adj_matrix n M) l -> p_nedges p = length l.
Proof. exact matrix_nedges. Qed.
Print Assumptions C07_matrix_count_partial.

Theorem C07_adjlist_count : forall n m A p,
  fits (length A + list_sum (map (@length nat) A)) -> real_sets A -> from_adjlist n m A = Ok (Ret p) ->
  forall l, edges_of (adj_sets A) l -> p_nedges p = length l.
Proof. exact adjlist_nedges. Qed.
Print Assumptions C07_adjlist_count.

Theorem C07_edgelist_count_refuted : exists rows n p l,
  from_edgelist rows n = Ok (Ret p) /\ edges_of (adj_rows rows) l /\ p_nedges p = 3 /\ length l = 1.
Proof.
  exists [(1, 2); (2, 1); (1, 1)], 2. eexists. exists [(1, 2)]. split; [vm_compute; reflexivity|]. split.
  - split; [repeat constructor; intros []|]. intros u v. split.
    + intros [E|[]]. inversion E; subst. split; [repeat constructor|]. split; [discriminate|]. left. left. reflexivity.
    + intros (L & N & [I|I]); simpl in I; destruct I as [I|[I|[I|[]]]]; inversion I; subst; try (left; reflexivity); exfalso; lia.
  - split; vm_compute; reflexivity.
Qed.
Print Assumptions C07_edgelist_count_refuted.

Theorem C07_matrix_count_refuted : exists n M p l,
  from_matrix n n M = Ok (Ret p) /\ (forall u v, In (u, v) l -> adj_matrix n M u v /\ u < v) /\ p_nedges p = 0 /\ length l = 1.
Proof.
  exists 2, (fun i j => (i =? 0) && (j =? 1)). eexists. exists [(1, 2)]. split; [vm_compute; reflexivity|]. split.
  - intros u v [E|[]]. inversion E; subst. split; [|repeat constructor]. unfold adj_matrix. repeat split; try (repeat constructor); try discriminate.
  - split; vm_compute; reflexivity.
Qed.
Print Assumptions C07_matrix_count_refuted.

Example C07_example : exists p, from_edgelist [(3, 1); (2, 3)] 3 = Ok (Ret p) /\ p_nedges p = 2 /\ distinct_rows [(3, 1); (2, 3)].
Proof.
  eexists. split; [vm_compute; reflexivity|]. split; [vm_compute; reflexivity|]. split.
  - simpl. constructor; [intros [E|[]]; discriminate|]. constructor; [intros []|constructor].
  - intros u [E|[E|[]]]; inversion E; subst; discriminate.
Qed.

(** * C10: same graph, same object: everything except n_edges (C07) and whether construction reallocated (C13). *)
Theorem C10_same_object : forall p q n adj adj', made p n adj -> made q n adj' -> (forall u v, adj u v <-> adj' u v) ->
  exists g h, p_G p = Some g /\ p_G q = Some h /\ forget_live g = forget_live h
              /\ p_nvert p = p_nvert q /\ p_cur p = p_cur q /\ p_done p = p_done q.
Proof. exact ExportFacts.made_same. Qed.
Print Assumptions C10_same_object.

Theorem C10_same_answers : forall p q n adj adj', made p n adj -> made q n adj' -> (forall u v, adj u v <-> adj' u v) ->
  storage_live p -> storage_live q ->
  forall e lb ub heur dfs cont, answer (get_max_clique e p lb ub heur dfs cont) = answer (get_max_clique e q lb ub heur dfs cont).
Proof. exact made_answers. Qed.
Print Assumptions C10_same_answers.

Example C10_example : exists p q,
  from_edgelist [(4, 3); (1, 2); (2, 3); (3, 1); (1, 4); (2, 1); (5, 4)] 5 = Ok (Ret p)
  /\ from_adjlist 5 6 [[]; [2; 3; 4]; [1; 3]; [1; 2; 4]; [1; 3; 5]; [4]] = Ok (Ret q) /\ p_G p = p_G q.
Proof. do 2 eexists. split; [vm_compute; reflexivity|]. split; vm_compute; reflexivity. Qed.

(** * C13: false in general. Full claim: construction never moves the storage the bitsets point into. What holds: it does not if
    there are at least five edges, and all degrees are below 64 or at most 32 * sqrt(number of edges) - 64. *)
Theorem C13_live_partial : forall p n adj l D, made p n adj ->
  (forall v, v <= n -> ends_with (vertex_neighbors p v) (fun r => exists nb, r = Ret nb /\ length nb <= D)) ->
  (forall u v, In (u, v) l -> u < v /\ adj u v) -> NoDup l -> 5 <= length l -> (64 <= D -> (D + 64) * (D + 64) <= 1024 * length l) ->
  storage_live p.
Proof. exact made_live. Qed.
Print Assumptions C13_live_partial.

(** Likewise for NWGraph. Missing: all other graphs (C13_exact_weighted, C13_large_refuted). *)
Theorem C13_live_weighted_partial : forall rnd p n adj w l D, nmade rnd p n adj w ->
  (forall v, v <= n -> ends_with (vertex_neighbors (nw_as_pygraph p) v) (fun r => exists nb, r = Ret nb /\ length nb <= D)) ->
  (forall u v, In (u, v) l -> u < v /\ adj u v) -> NoDup l -> 5 <= length l -> (64 <= D -> (D + 64) * (D + 64) <= 1024 * length l) ->
  nstorage_live p.
Proof. exact nmade_live. Qed.
Print Assumptions C13_live_weighted_partial.

(** If it has moved, no search returns or raises, whatever has been called before. *)
Theorem C13_search_undefined : forall p n adj, made p n adj -> 1 <= n -> ~ storage_live p -> forall q, calls p q ->
  forall e lb ub heur dfs cont r, get_max_clique e q lb ub heur dfs cont <> Ok r.
Proof. exact dead_search. Qed.
Print Assumptions C13_search_undefined.

Theorem C13_search_undefined_weighted : forall rnd p n adj w, nmade rnd p n adj w -> 1 <= n -> ~ nstorage_live p -> forall q, ncalls rnd p q ->
  forall e lb ub heur dfs r, nw_get_max_clique rnd e q lb ub heur dfs <> Ok r.
Proof. exact dead_nsearch. Qed.
Print Assumptions C13_search_undefined_weighted.

(** It moves for every graph with a clique c and a vertex with many neighbours nb, ... *)
Theorem C13_hub_dangles : forall rows n p c v nb, fits (n + 1 + 2 * length rows) -> from_edgelist rows n = Ok (Ret p) ->
  clique n (adj_rows rows) c -> NoDup nb -> (forall u, In u nb -> adj_rows rows v u) ->
  64 * (n + 1 + 2 * length rows) <= (length c + 1) * length nb -> ~ storage_live p.
Proof. exact hub_dangles. Qed.
Print Assumptions C13_hub_dangles.

(** ... in particular for graphs of any number of edges. *)
Theorem C13_large_refuted : forall c, 512 <= c -> fits (10 * (c * c)) -> exists rows n p, c * c <= length rows
  /\ from_edgelist rows n = Ok (Ret p) /\ ~ storage_live p.
Proof. exact large_dangles. Qed.
Print Assumptions C13_large_refuted.

Example C13_large_example : fits (10 * (512 * 512)).
Proof. unfold fits. rewrite !Nat2Z.inj_mul. reflexivity. Qed.

Example C13_weighted_example : exists p, nw_from_edgelist half_even [(1, 2)] 2 [3%Z; 4%Z] = Ok (Ret p) /\ ~ nstorage_live p.
Proof. eexists. split; [vm_compute; reflexivity|]. intros (g & G & L). inversion G; subst. discriminate. Qed.

Theorem C13_dangling_refuted : exists rows n p e,
  from_edgelist rows n = Ok (Ret p) /\ ~ storage_live p /\ get_max_clique e p 1 DEFAULT_UB true true false = UB Dangling.
Proof.
  exists [(1, 2)], 2. eexists. exists (mkEnv true (fun l => l) None). split; [vm_compute; reflexivity|]. split.
  - intros (g & G & L). inversion G; subst. discriminate.
  - vm_compute. reflexivity.
Qed.
Print Assumptions C13_dangling_refuted.

Example C13_example : exists p, from_edgelist [(1, 2); (2, 3); (3, 4); (4, 5); (5, 1)] 5 = Ok (Ret p) /\ storage_live p
  /\ answer (get_max_clique (mkEnv true (fun l => l) None) p 1 DEFAULT_UB true true false) = Ok (Ret [1; 2]).
Proof. eexists. split; [vm_compute; reflexivity|]. split; [eexists; split; [reflexivity|vm_compute; reflexivity]|vm_compute; reflexivity]. Qed.

(** A star with 64 leaves: a degree of 64, and 64 edges *)
Example C13_star_example : exists p, from_edgelist (map (fun i => (1, i)) (seq 2 64)) 65 = Ok (Ret p) /\ storage_live p
  /\ (exists nb, vertex_neighbors p 1 = Ok (Ret nb) /\ length nb = 64).
Proof.
  eexists. split; [vm_compute; reflexivity|]. split; [eexists; split; [reflexivity|vm_compute; reflexivity]|].
  eexists. split; [vm_compute; reflexivity|reflexivity].
Qed.
