(** P_Swap: the two sets exchanged (C96); subgraph isomorphism (C97). *)
From Verif Require Import Base MBits MUtils MGraph MHeur MStack MRec MEnum MApi MExt MPy Spec SpecDec SpecSwap SearchProps Samples ExtFacts ExtProps ExtSamples SwapFacts.
Local Open Scope nat_scope.

(** * C96. Full claim: building the graph of (S2, S1) in place of that of (S1, S2) exchanges i and j in all matches and changes nothing else.

    False for metrics: distances 6, 7, 8 and 6, 7, 10, with epsilon 1. The interval [7, 9] around 8 is extended to 10, while [9, 11] around
    10 lies above all of 6, 7, 8 and matches nothing (C44). The answers have 3 and 2 pairs. *)
Theorem C96_metric_refuted : exists srt S1 S2 eps q q' r r' a b a' b', sorts_dists srt /\ (0 < eps)%Z /\ table_fits S1 /\ table_fits S2
  /\ honest S1 /\ honest S2
  /\ build_edges_metric_only srt new_pygraph S1 S2 eps = Ok (Ret q) /\ edges_fit q
  /\ build_edges_metric_only srt new_pygraph S2 S1 eps = Ok (Ret q') /\ edges_fit q' /\ ~ transposed (m_n S1) (m_n S2) q q'
  /\ get_correspondence (run_env None) q (m_n S2) 1 DEFAULT_UB true true false = Ok (r, Ret (a, b)) /\ length a = 3
  /\ get_correspondence (run_env None) q' (m_n S1) 1 DEFAULT_UB true true false = Ok (r', Ret (a', b')) /\ length a' = 2.
Proof.
  exists pd_sort, (tset 3 [(0, 1, 6%Z); (0, 2, 7%Z); (1, 2, 8%Z)]), (tset 3 [(0, 1, 6%Z); (0, 2, 7%Z); (1, 2, 10%Z)]), 1%Z. do 8 eexists.
  split; [apply pd_sort_sorts|]. split; [reflexivity|]. split; [vm_compute; reflexivity|].
  split; [vm_compute; reflexivity|]. split; [intros _; apply lookup_sym|]. split; [intros _; apply lookup_sym|].
  split; [vm_compute; reflexivity|]. split; [vm_compute; reflexivity|]. split; [vm_compute; reflexivity|]. split; [vm_compute; reflexivity|].
  split; [|split; [vm_compute; reflexivity|]; split; [reflexivity|]; split; [vm_compute; reflexivity|reflexivity]].
  intros T. specialize (T 1 2 1 2 ltac:(vm_compute; auto) ltac:(vm_compute; auto) ltac:(vm_compute; auto) ltac:(vm_compute; auto)). apply proj1 in T.
  match type of T with _ -> neighbour ?g ?u ?v => assert (N : ~ neighbour g u v) by (apply neighbourb_no; vm_compute; reflexivity) end.
  apply N, T. apply neighbourb_iff. vm_compute. reflexivity.
Qed.
Print Assumptions C96_metric_refuted.

(** False for graphs: every map of the path 1-2-3 into the triangle sends edges to edges, not the other way round. *)
Theorem C96_iso_refuted : exists s1 s2 adj1 adj2 q q' r r' a b a' b', made s1 3 adj1 /\ made s2 3 adj2
  /\ build_edges_for_iso new_pygraph s1 s2 = Ok (Ret q) /\ edges_fit q /\ build_edges_for_iso new_pygraph s2 s1 = Ok (Ret q') /\ edges_fit q'
  /\ ~ transposed 3 3 q q'
  /\ iso_get_correspondence (run_env None) q s2 1 DEFAULT_UB true true false = Ok (r, Ret (a, b)) /\ length a = 3
  /\ iso_get_correspondence (run_env None) q' s1 1 DEFAULT_UB true true false = Ok (r', Ret (a', b')) /\ length a' = 2.
Proof.
  exists tri3, (graph_of [(1, 2); (2, 3)] 3), (adj_rows [(1, 2); (2, 3); (1, 3)]), (adj_rows [(1, 2); (2, 3)]).
  do 8 eexists. split; [apply made_of; [reflexivity|vm_compute; reflexivity]|]. split; [apply made_of; [reflexivity|vm_compute; reflexivity]|].
  split; [vm_compute; reflexivity|]. split; [vm_compute; reflexivity|]. split; [vm_compute; reflexivity|]. split; [vm_compute; reflexivity|].
  split; [|split; [vm_compute; reflexivity|]; split; [reflexivity|]; split; [vm_compute; reflexivity|reflexivity]].
  intros T. specialize (T 0 1 0 2 ltac:(auto) ltac:(auto) ltac:(auto) ltac:(auto)). apply proj1 in T.
  match type of T with _ -> neighbour ?g ?u ?v => assert (N : ~ neighbour g u v) by (apply neighbourb_no; vm_compute; reflexivity) end.
  apply N, T. apply neighbourb_iff. vm_compute. reflexivity.
Qed.
Print Assumptions C96_iso_refuted.

(** What holds. Conditions only, the arguments of the condition exchanged: exactly transposed, and the answers are equally large. *)
Theorem C96_condition_partial : forall n1 n2 f f' q q', (forall i i' j j', f' j j' i i' = f i i' j j') ->
  build_edges_condition_only new_pygraph n1 n2 f = Ok (Ret q) -> edges_fit q ->
  build_edges_condition_only new_pygraph n2 n1 f' = Ok (Ret q') -> edges_fit q' -> transposed n1 n2 q q'.
Proof. exact condition_swap. Qed.
Print Assumptions C96_condition_partial.

Theorem C96_maximum_partial : forall n1 n2 q q', transposed n1 n2 q q' -> corr_graph n1 n2 q -> edges_fit q -> storage_live q ->
  corr_graph n2 n1 q' -> edges_fit q' -> storage_live q' -> (exists u v, neighbour q u v) ->
  forall e e' ub ub' heur heur' cont cont', permutes e -> never_late e -> permutes e' -> never_late e' ->
  n1 <= ub \/ n2 <= ub -> n1 <= ub' \/ n2 <= ub' ->
  exists r r' a b a' b', get_correspondence e q n2 1 ub heur true cont = Ok (r, Ret (a, b))
    /\ get_correspondence e' q' n1 1 ub' heur' true cont' = Ok (r', Ret (a', b')) /\ length a = length a'.
Proof. exact swap_maximum. Qed.
Print Assumptions C96_maximum_partial.

(** Metrics: an edge is missing from the other graph only if it joins distances farther apart than epsilon, or exactly epsilon apart and
    the distance of set 1 is not the only one of its kind. *)
Theorem C96_metric_partial : forall srt srt' S1 S2 eps, sorts_dists srt -> sorts_dists srt' -> table_fits S1 -> table_fits S2 ->
  (forall k l, m_d S1 k l = m_d S1 l k) -> (forall k l, m_d S2 k l = m_d S2 l k) ->
  forall q q', build_edges_metric_only srt new_pygraph S1 S2 eps = Ok (Ret q) -> edges_fit q ->
  build_edges_metric_only srt' new_pygraph S2 S1 eps = Ok (Ret q') -> edges_fit q' ->
  forall i i' j j', i < m_n S1 -> i' < m_n S1 -> j < m_n S2 -> j' < m_n S2 ->
  Z.abs (m_d S1 i i' - m_d S2 j j') <> eps \/ only S1 i i' ->
  neighbour q (vid (m_n S2) i j) (vid (m_n S2) i' j') ->
  neighbour q' (vid (m_n S1) j i) (vid (m_n S1) j' i') \/ next_to S2 eps (m_d S1 i i') (m_d S2 j j').
Proof. exact metric_swap. Qed.
Print Assumptions C96_metric_partial.

(** Graphs: the edges common to both products join the matches that keep edges and non-edges. *)
Theorem C96_iso_partial : forall s1 s2 q q' n1 n2 adj1 adj2, made s1 n1 adj1 -> made s2 n2 adj2 ->
  build_edges_for_iso new_pygraph s1 s2 = Ok (Ret q) -> edges_fit q -> build_edges_for_iso new_pygraph s2 s1 = Ok (Ret q') -> edges_fit q' ->
  forall i i' j j', 1 <= i <= n1 -> 1 <= i' <= n1 -> 1 <= j <= n2 -> 1 <= j' <= n2 ->
  (neighbour q (vid n2 (i - 1) (j - 1)) (vid n2 (i' - 1) (j' - 1)) /\ neighbour q' (vid n1 (j - 1) (i - 1)) (vid n1 (j' - 1) (i' - 1))
   <-> i <> i' /\ j <> j' /\ (adj1 i i' <-> adj2 j j')).
Proof. exact iso_swap. Qed.
Print Assumptions C96_iso_partial.

Example C96_example : exists q q', build_edges_condition_only new_pygraph 3 2 (fun i i' j j' => (i + i' + j' =? 4)) = Ok (Ret q) /\ edges_fit q /\ storage_live q
  /\ build_edges_condition_only new_pygraph 2 3 (fun j j' i i' => (i + i' + j' =? 4)) = Ok (Ret q') /\ edges_fit q' /\ storage_live q'
  /\ neighbour q (vid 2 1 0) (vid 2 2 1) /\ neighbour q' (vid 3 0 1) (vid 3 1 2) /\ ~ neighbour q (vid 2 0 0) (vid 2 2 1)
  /\ exists r r', get_correspondence (run_env None) q 2 1 2 true true false = Ok (r, Ret ([1; 2], [0; 1]))
       /\ get_correspondence (run_env None) q' 3 1 2 true true false = Ok (r', Ret ([0; 1], [1; 2])).
Proof.
  do 2 eexists. split; [vm_compute; reflexivity|]. split; [vm_compute; reflexivity|]. split; [apply liveb_sound; vm_compute; reflexivity|].
  split; [vm_compute; reflexivity|]. split; [vm_compute; reflexivity|]. split; [apply liveb_sound; vm_compute; reflexivity|].
  split; [apply neighbourb_iff; vm_compute; reflexivity|]. split; [apply neighbourb_iff; vm_compute; reflexivity|].
  split; [apply neighbourb_no; vm_compute; reflexivity|]. do 2 eexists. split; vm_compute; reflexivity.
Qed.

(** 10 and 5: farther apart than epsilon, compatible in both graphs. *)
Example C96_metric_example : exists q q', build_edges_metric_only pd_sort new_pygraph pair10 spread 1 = Ok (Ret q) /\ edges_fit q
  /\ build_edges_metric_only pd_sort new_pygraph spread pair10 1 = Ok (Ret q') /\ edges_fit q' /\ table_fits pair10 /\ table_fits spread
  /\ (Z.abs (m_d pair10 0 1 - m_d spread 0 1) <> 1)%Z
  /\ neighbour q (vid 3 0 0) (vid 3 1 1) /\ neighbour q' (vid 2 0 0) (vid 2 1 1) /\ next_to spread 1 (m_d pair10 0 1) (m_d spread 0 1).
Proof.
  do 2 eexists. split; [vm_compute; reflexivity|]. split; [vm_compute; reflexivity|]. split; [vm_compute; reflexivity|]. split; [vm_compute; reflexivity|].
  split; [vm_compute; reflexivity|]. split; [vm_compute; reflexivity|]. split; [vm_compute; discriminate|].
  split; [apply neighbourb_iff; vm_compute; reflexivity|]. split; [apply neighbourb_iff; vm_compute; reflexivity|].
  left. split; [vm_compute; reflexivity|]. intros k l (K & L & N).
  cbn in K, L. destruct k as [|[|[|k]]]; [| | |lia]; (destruct l as [|[|[|l]]]; [| | |lia]); try congruence; cbn; lia.
Qed.

Example C96_iso_example : made tri4 4 (adj_rows [(2, 3); (3, 4); (2, 4)]) /\ made tri3 3 (adj_rows [(1, 2); (2, 3); (1, 3)])
  /\ build_edges_for_iso new_pygraph tri4 tri3 = Ok (Ret (product tri4 tri3)) /\ edges_fit (product tri4 tri3)
  /\ build_edges_for_iso new_pygraph tri3 tri4 = Ok (Ret (product tri3 tri4)) /\ edges_fit (product tri3 tri4)
  /\ neighbour (product tri4 tri3) (vid 3 1 0) (vid 3 3 2) /\ neighbour (product tri3 tri4) (vid 4 0 1) (vid 4 2 3)
  /\ neighbour (product tri3 tri4) (vid 4 0 0) (vid 4 2 3) /\ ~ neighbour (product tri4 tri3) (vid 3 0 0) (vid 3 3 2).
Proof.
  split; [apply made_of; [reflexivity|vm_compute; reflexivity]|]. split; [apply made_of; [reflexivity|vm_compute; reflexivity]|].
  split; [vm_compute; reflexivity|]. split; [vm_compute; reflexivity|]. split; [vm_compute; reflexivity|]. split; [vm_compute; reflexivity|].
  split; [apply neighbourb_iff; vm_compute; reflexivity|]. split; [apply neighbourb_iff; vm_compute; reflexivity|].
  split; [apply neighbourb_iff; vm_compute; reflexivity|apply neighbourb_no; vm_compute; reflexivity].
Qed.

(** * C97. Full claim: IsoGraph.get_correspondence matches all vertices of the second graph iff the first contains a copy of it, and the
    matched vertices then span isomorphic subgraphs.

    False: the path 1-2-3 is matched with the triangle, where the vertices 1 and 3 are also joined. *)
Theorem C97_induced_refuted : exists s1 s2 adj1 adj2 q r, made s1 3 adj1 /\ made s2 3 adj2 /\ build_edges_for_iso new_pygraph s1 s2 = Ok (Ret q)
  /\ edges_fit q /\ storage_live q
  /\ iso_get_correspondence (run_env None) q s2 1 DEFAULT_UB true true false = Ok (r, Ret ([1; 2; 3], [1; 2; 3])) /\ adj1 1 3 /\ ~ adj2 1 3.
Proof.
  exists tri3, (graph_of [(1, 2); (2, 3)] 3), (adj_rows [(1, 2); (2, 3); (1, 3)]), (adj_rows [(1, 2); (2, 3)]). do 2 eexists.
  split; [apply made_of; [reflexivity|vm_compute; reflexivity]|]. split; [apply made_of; [reflexivity|vm_compute; reflexivity]|].
  split; [vm_compute; reflexivity|]. split; [vm_compute; reflexivity|]. split; [apply liveb_sound; vm_compute; reflexivity|].
  split; [vm_compute; reflexivity|]. split; [split; [discriminate|left; cbn; auto]|].
  intros (_ & [[H|[H|[]]]|[H|[H|[]]]]); discriminate.
Qed.
Print Assumptions C97_induced_refuted.

(** What holds: the first half, whenever the product has an edge (C12) and its storage is live (C13). *)
Theorem C97_decides_partial : forall s1 s2 q n1 n2 adj1 adj2, made s1 n1 adj1 -> made s2 n2 adj2 ->
  build_edges_for_iso new_pygraph s1 s2 = Ok (Ret q) -> edges_fit q -> storage_live q ->
  forall e heur cont, (exists u v, neighbour q u v) -> permutes e -> untimed e -> (Z.of_nat n1 <= 65535 \/ Z.of_nat n2 <= 65535)%Z ->
  ends_with (iso_get_correspondence e q s2 1 DEFAULT_UB heur true cont) (fun r => exists a b, snd r = Ret (a, b)
    /\ embedding n1 adj1 n2 adj2 a b /\ (length a = n2 <-> exists phi, copy_in n1 adj1 n2 adj2 phi)).
Proof. exact iso_decides. Qed.
Print Assumptions C97_decides_partial.

(** The triangle is contained in [tri4]; the complete graph on four vertices is not, and three of its vertices are matched. *)
Example C97_example : made tri4 4 (adj_rows [(2, 3); (3, 4); (2, 4)]) /\ made tri3 3 (adj_rows [(1, 2); (2, 3); (1, 3)])
  /\ build_edges_for_iso new_pygraph tri4 tri3 = Ok (Ret (product tri4 tri3)) /\ edges_fit (product tri4 tri3) /\ storage_live (product tri4 tri3)
  /\ neighbour (product tri4 tri3) (vid 3 1 0) (vid 3 3 2) /\ permutes (run_env None) /\ untimed (run_env None)
  /\ copy_in 4 (adj_rows [(2, 3); (3, 4); (2, 4)]) 3 (adj_rows [(1, 2); (2, 3); (1, 3)]) S
  /\ (exists r a b, iso_get_correspondence (run_env None) (product tri4 tri3) tri3 1 DEFAULT_UB true true false = Ok (r, Ret (a, b)) /\ length a = 3)
  /\ (exists r a b, iso_get_correspondence (run_env None) (product tri4 full4) full4 1 DEFAULT_UB true true false = Ok (r, Ret (a, b)) /\ length a = 3).
Proof.
  split; [apply made_of; [reflexivity|vm_compute; reflexivity]|]. split; [apply made_of; [reflexivity|vm_compute; reflexivity]|].
  split; [vm_compute; reflexivity|]. split; [vm_compute; reflexivity|]. split; [apply liveb_sound; vm_compute; reflexivity|].
  split; [apply neighbourb_iff; vm_compute; reflexivity|]. split; [apply run_env_sorts|]. split; [reflexivity|].
  split. { split; [lia|]. split; [lia|]. intros x y (N & H). split; [lia|]. cbn in H |- *. destruct H as [[H|[H|[H|[]]]]|[H|[H|[H|[]]]]]; injection H as <- <-; auto. }
  split; do 3 eexists; (split; [vm_compute; reflexivity|reflexivity]).
Qed.
