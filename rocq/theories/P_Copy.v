(** P_Copy: exporting a graph and loading it again (C105). *)
From Verif Require Import Base MUtils MGraph MHeur MStack MApi MExt MNW MNWApi Spec SpecNW SpecKeep SpecScript SpecCopy SpecDec Samples NWSamples SpecRound NWRoundFacts CopyFacts CopySamples.
From Coq Require Import Sorting.Sorted.
Local Open Scope nat_scope.

(** * C105: whatever has been called in between. [calls] and [ncalls] are those of C59. *)
Theorem C105_matrix : forall p n adj, made p n adj -> 1 <= n -> fits (1 + 2 * (n * n)) -> forall q, calls p q ->
  exists M p', to_matrix q = Ok (Ret M) /\ from_matrix n n (cell M) = Ok (Ret p') /\ copies n adj p' /\ same_for_programs p p'.
Proof. exact copy_matrix. Qed.
Print Assumptions C105_matrix.

(** from_adjlist wants to be told the number of edges, and takes no other. *)
(** Missing: n_edges in place of the number of edges (C105_adjlist_refuted). *)
Theorem C105_adjlist_partial : forall p n adj, made p n adj -> 1 <= n -> fits (1 + 2 * (n * n)) -> forall q, calls p q ->
  exists A, to_adjlist q = Ok (Ret A)
    /\ (forall l, edges_of adj l -> exists p', from_adjlist n (length l) A = Ok (Ret p') /\ copies n adj p' /\ same_for_programs p p')
    /\ (forall l m, edges_of adj l -> m <> length l -> exists x, from_adjlist n m A = Ok (Raise x)).
Proof. exact copy_adjlist. Qed.
Print Assumptions C105_adjlist_partial.

(** to_edgelist needs the right edge count (C06, C07). *)
Theorem C105_edgelist_partial : forall p n adj, made p n adj -> 1 <= n -> fits (1 + 2 * (n * n)) -> (forall l, edges_of adj l -> p_nedges p = length l) ->
  forall q, calls p q ->
  exists rows p', to_edgelist q = Ok (Ret (map Some rows)) /\ from_edgelist rows n = Ok (Ret p') /\ copies n adj p' /\ same_for_programs p p'.
Proof. exact copy_edgelist. Qed.
Print Assumptions C105_edgelist_partial.

(** Full claim: from_adjlist(n_vertices, n_edges, to_adjlist()) loads the graph again. It raises if an edge was given twice. *)
Theorem C105_adjlist_refuted : exists rows n p A, from_edgelist rows n = Ok (Ret p) /\ to_adjlist p = Ok (Ret A)
  /\ from_adjlist (p_nvert p) (p_nedges p) A = Ok (Raise EEdgeCount).
Proof.
  exists [(1, 2); (2, 3); (3, 1); (2, 1)], 3. do 2 eexists. split; [vm_compute; reflexivity|]. split; [vm_compute; reflexivity|].
  vm_compute; reflexivity.
Qed.
Print Assumptions C105_adjlist_refuted.

Theorem C105_weighted_matrix : forall rnd p n adj w, nmade rnd p n adj w -> 1 <= n -> fits (1 + 2 * (n * n)) -> forall q, ncalls rnd p q ->
  exists M p', nw_to_matrix q = Ok (Ret M) /\ nw_all_weights q = Ok (Ret w) /\ nw_from_matrix rnd n n (cell M) w = Ok (Ret p')
    /\ ncopies n adj w p' /\ nsame_for_programs rnd p p'.
Proof. exact nw_copy_matrix. Qed.
Print Assumptions C105_weighted_matrix.

(** Likewise for NWGraph. Missing: objects whose n_edges is not the number of edges (C07). *)
Theorem C105_weighted_edgelist_partial : forall rnd p n adj w, nmade rnd p n adj w -> 1 <= n -> fits (1 + 2 * (n * n)) ->
  (forall l, edges_of adj l -> q_nedges p = length l) -> forall q, ncalls rnd p q ->
  exists rows p', nw_to_edgelist q = Ok (Ret (map Some rows)) /\ nw_all_weights q = Ok (Ret w) /\ nw_from_edgelist rnd rows n w = Ok (Ret p')
    /\ ncopies n adj w p' /\ nsame_for_programs rnd p p'.
Proof. exact nw_copy_edgelist. Qed.
Print Assumptions C105_weighted_edgelist_partial.

(** After a search, with storage that stays live in the copy. *)
Example C105_example : made sample 8 (adj_rows sample_rows) /\ fits (1 + 2 * (8 * 8))
  /\ exists q M p', get_max_clique (run_env None) sample 1 DEFAULT_UB true true false = Ok (q, Ret [1; 2; 3; 4]) /\ calls sample q
  /\ to_matrix q = Ok (Ret M) /\ from_matrix 8 8 (cell M) = Ok (Ret p') /\ storage_live sample /\ storage_live p'
  /\ get_max_clique (run_env None) p' 1 DEFAULT_UB true true false = Ok (q, Ret [1; 2; 3; 4]).
Proof. exact copy_example. Qed.

Example C105_weighted_example : nmade half_even wsample 6 (adj_rows wrows) wwts /\ fits (1 + 2 * (6 * 6))
  /\ exists rows p', nw_to_edgelist wsample = Ok (Ret (map Some rows)) /\ nw_from_edgelist half_even rows 6 wwts = Ok (Ret p') /\ nstorage_live p'.
Proof. exact nw_copy_example. Qed.
