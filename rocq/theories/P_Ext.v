(** P_Ext: properties of the correspondence graphs (C41 - C51). *)
From Verif Require Import Base MBits MUtils MGraph MHeur MStack MRec MEnum MApi MExt MPy Spec SpecDec SearchProps Samples ExtFacts IsoFacts ExtProps ExtSamples SpecIso IsoDicts MCorr CorrCalls.
Local Open Scope nat_scope.

(** * C41 *)
Theorem C41_vertices_decode : forall n1 n2 v, 1 <= v <= n1 * n2 ->
  exists i j, i < n1 /\ j < n2 /\ v = i * n2 + j + 1 /\ forall i' j', j' < n2 -> v = i' * n2 + j' + 1 -> i' = i /\ j' = j.
Proof. exact vertices_decode. Qed.
Print Assumptions C41_vertices_decode.

Theorem C41_correspondence : forall n1 n2 e p lb ub heur dfs cont p' c, 1 <= n2 ->
  get_max_clique e p lb ub heur dfs cont = Ok (p', Ret c) -> (forall v, In v c -> 1 <= v <= n1 * n2) ->
  exists a b, get_correspondence e p n2 lb ub heur dfs cont = Ok (p', Ret (a, b))
    /\ length a = length c /\ length b = length c
    /\ forall k, k < length c -> nth k a 0 < n1 /\ nth k b 0 < n2 /\ nth k c 0 = nth k a 0 * n2 + nth k b 0 + 1.
Proof. exact correspondence_decodes. Qed.
Print Assumptions C41_correspondence.

Example C41_example : exists q, get_max_clique (run_env None) sample 1 DEFAULT_UB true true false = Ok (q, Ret [1; 2; 3; 4])
  /\ get_correspondence (run_env None) sample 4 1 DEFAULT_UB true true false = Ok (q, Ret ([0; 0; 0; 0], [0; 1; 2; 3]))
  /\ get_correspondence (run_env None) sample 2 1 DEFAULT_UB true true false = Ok (q, Ret ([0; 0; 1; 1], [0; 1; 0; 1])).
Proof. eexists. split; [vm_compute; reflexivity|]. split; vm_compute; reflexivity. Qed.

(** * C42 *)
Theorem C42_one_to_one : forall n1 n2 p, corr_graph n1 n2 p -> edges_fit p -> storage_live p -> (exists u v, neighbour p u v) ->
  forall q e lb ub heur dfs cont, history p q -> lawful e lb ->
  ends_with (get_correspondence e q n2 lb ub heur dfs cont) (fun r =>
    match snd r with
    | Ret (a, b) => matching n1 n2 a b /\ compatible p n2 a b /\ lb <= length a
    | Raise x => x = EBounds
    end).
Proof. exact correspondences. Qed.
Print Assumptions C42_one_to_one.

Theorem C42_all_correspondences : forall n1 n2 p, corr_graph n1 n2 p -> edges_fit p -> storage_live p -> (exists u v, neighbour p u v) ->
  forall q lr k i en0 q1 en1 l q2 en2 a b, history p q -> all_correspondences q n1 n2 k = Ret en0 ->
  nexts i lr q en0 = Ok (q1, en1, l) -> length l = i -> next_correspondence lr n2 q1 en1 = Ok (q2, en2, Ret (a, b)) ->
  matching n1 n2 a b /\ compatible p n2 a b /\ length a = k.
Proof. exact listed_correspondences. Qed.
Print Assumptions C42_all_correspondences.

Example C42_example : exists p q, build_edges_metric_only pd_sort new_pygraph equal3 equal3 1 = Ok (Ret p)
  /\ corr_graph 3 3 p /\ edges_fit p /\ storage_live p /\ neighbour p 1 5
  /\ get_correspondence (run_env None) p 3 1 DEFAULT_UB true true false = Ok (q, Ret ([0; 1; 2], [0; 1; 2])).
Proof.
  eexists. eexists. split; [vm_compute; reflexivity|]. split.
  - eapply (cg_metric _ _ _ exact pd_sort equal3 equal3 1%Z); [reflexivity|reflexivity|apply pd_sort_sorts|vm_compute; reflexivity|apply exact_rises|vm_compute; reflexivity].
  - split; [vm_compute; reflexivity|]. split; [apply liveb_sound; vm_compute; reflexivity|].
    split; [apply neighbourb_iff; vm_compute; reflexivity|vm_compute; reflexivity].
Qed.

(** * C43 *)
Theorem C43_close_matches_kept : forall srt S1 S2 eps, sorts_dists srt -> table_fits S2 ->
  forall p q i i' j j', honest S1 -> honest S2 -> build_edges_metric_only srt p S1 S2 eps = Ok (Ret q) -> edges_fit q ->
  two S1 i i' -> two S2 j j' -> (Z.abs (m_d S1 i i' - m_d S2 j j') < eps)%Z ->
  neighbour q (vid (m_n S2) i j) (vid (m_n S2) i' j').
Proof. exact (fun srt S1 S2 eps Hs HT p q i i' j j' H1 H2 E F T1 T2 D => metric_keeps srt S1 S2 eps Hs HT p q i i' j j' H1 H2 E F T1 T2 (or_introl D)). Qed.
Print Assumptions C43_close_matches_kept.

(** With a condition as well: it is asked about (i, i', j, j'); if d1 is declared symmetric, with the smaller element first. *)
Theorem C43_with_condition : forall srt S1 S2 eps, sorts_dists srt -> table_fits S2 ->
  forall f p q i i' j j', honest S1 -> honest S2 -> build_edges srt p S1 S2 eps f = Ok (Ret q) -> edges_fit q ->
  two S1 i i' -> two S2 j j' ->
  (m_sym S1 = false \/ i < i' -> f i i' j j' = true) -> (m_sym S1 = true /\ i' < i -> f i' i j' j = true) ->
  (Z.abs (m_d S1 i i' - m_d S2 j j') < eps \/ (Z.abs (m_d S1 i i' - m_d S2 j j') <= eps /\ only S2 j j'))%Z ->
  neighbour q (vid (m_n S2) i j) (vid (m_n S2) i' j').
Proof. exact both_keeps. Qed.
Print Assumptions C43_with_condition.

Example C43_example : exists q, build_edges_metric_only pd_sort new_pygraph pair10 equal3 1 = Ok (Ret q) /\ edges_fit q
  /\ honest pair10 /\ honest equal3 /\ two pair10 0 1 /\ two equal3 2 1 /\ (Z.abs (m_d pair10 0 1 - m_d equal3 2 1) < 1)%Z
  /\ neighbour q 3 5.
Proof.
  eexists. split; [vm_compute; reflexivity|]. split; [vm_compute; reflexivity|].
  split; [intros _; apply lookup_sym|]. split; [intros _; apply lookup_sym|].
  split; [repeat split; cbn; auto|]. split; [repeat split; cbn; auto; discriminate|]. split; [vm_compute; reflexivity|].
  apply neighbourb_iff. vm_compute. reflexivity.
Qed.

(** * C44: distances 10 and 5 are matched although they differ by more than epsilon = 1. *)
Theorem C44_extra_edge_refuted : exists srt S1 S2 eps q i i' j j', sorts_dists srt /\ (0 < eps)%Z /\ table_fits S2 /\ honest S1 /\ honest S2
  /\ build_edges_metric_only srt new_pygraph S1 S2 eps = Ok (Ret q) /\ edges_fit q /\ two S1 i i' /\ two S2 j j'
  /\ neighbour q (vid (m_n S2) i j) (vid (m_n S2) i' j') /\ (eps < Z.abs (m_d S1 i i' - m_d S2 j j'))%Z.
Proof.
  exists pd_sort, pair10, spread, 1%Z. eexists. exists 0, 1, 0, 1. split; [apply pd_sort_sorts|]. split; [reflexivity|].
  split; [vm_compute; reflexivity|]. split; [intros _; apply lookup_sym|]. split; [intros _; apply lookup_sym|].
  split; [vm_compute; reflexivity|]. split; [vm_compute; reflexivity|]. split; [repeat split; cbn; auto|]. split; [repeat split; cbn; auto|].
  split; [apply neighbourb_iff; vm_compute; reflexivity|vm_compute; reflexivity].
Qed.
Print Assumptions C44_extra_edge_refuted.

(** Full claim: only matches whose distances differ by at most epsilon are adjacent. What holds: they may also differ by more,
    but then no distance of set 2 lies between d2(j,j') and the interval around d1(i,i'). *)
Theorem C44_nearest_partial : forall srt S1 S2 eps, sorts_dists srt -> table_fits S2 ->
  forall p q i i' j j', (forall k l, m_d S1 k l = m_d S1 l k) -> (forall k l, m_d S2 k l = m_d S2 l k) ->
  build_edges_metric_only srt p S1 S2 eps = Ok (Ret q) -> edges_fit q ->
  j < m_n S2 -> j' < m_n S2 -> neighbour q (vid (m_n S2) i j) (vid (m_n S2) i' j') ->
  two S1 i i' /\ j <> j'
  /\ ((Z.abs (m_d S1 i i' - m_d S2 j j') <= eps)%Z \/ next_to S2 eps (m_d S1 i i') (m_d S2 j j')).
Proof. exact metric_adds. Qed.
Print Assumptions C44_nearest_partial.

Theorem C44_nearest_with_condition_partial : forall srt S1 S2 eps, sorts_dists srt -> table_fits S2 ->
  forall f p q i i' j j', (forall k l, m_d S1 k l = m_d S1 l k) -> (forall k l, m_d S2 k l = m_d S2 l k) ->
  build_edges srt p S1 S2 eps f = Ok (Ret q) -> edges_fit q ->
  j < m_n S2 -> j' < m_n S2 -> neighbour q (vid (m_n S2) i j) (vid (m_n S2) i' j') ->
  two S1 i i' /\ j <> j'
  /\ ((Z.abs (m_d S1 i i' - m_d S2 j j') <= eps)%Z \/ next_to S2 eps (m_d S1 i i') (m_d S2 j j')).
Proof. exact both_adds. Qed.
Print Assumptions C44_nearest_with_condition_partial.

(** And on either side of the interval at most one unordered pair of set 2 is matched with (i,i'). *)
Theorem C44_one_each_side_partial : forall srt S1 S2 eps, sorts_dists srt -> (0 <= eps)%Z -> table_fits S2 ->
  forall p q i i' j j' k k', (forall x y, m_d S1 x y = m_d S1 y x) -> (forall x y, m_d S2 x y = m_d S2 y x) ->
  build_edges_metric_only srt p S1 S2 eps = Ok (Ret q) -> edges_fit q -> j < m_n S2 -> j' < m_n S2 -> k < m_n S2 -> k' < m_n S2 ->
  neighbour q (vid (m_n S2) i j) (vid (m_n S2) i' j') -> neighbour q (vid (m_n S2) i k) (vid (m_n S2) i' k') ->
  (m_d S2 j j' < m_d S1 i i' - eps /\ m_d S2 k k' < m_d S1 i i' - eps
   \/ m_d S1 i i' + eps < m_d S2 j j' /\ m_d S1 i i' + eps < m_d S2 k k')%Z -> (j = k /\ j' = k') \/ (j = k' /\ j' = k).
Proof. exact metric_one. Qed.
Print Assumptions C44_one_each_side_partial.

Theorem C44_one_each_side_with_condition_partial : forall srt S1 S2 eps, sorts_dists srt -> (0 <= eps)%Z -> table_fits S2 ->
  forall f p q i i' j j' k k', (forall x y, m_d S1 x y = m_d S1 y x) -> (forall x y, m_d S2 x y = m_d S2 y x) ->
  build_edges srt p S1 S2 eps f = Ok (Ret q) -> edges_fit q -> j < m_n S2 -> j' < m_n S2 -> k < m_n S2 -> k' < m_n S2 ->
  neighbour q (vid (m_n S2) i j) (vid (m_n S2) i' j') -> neighbour q (vid (m_n S2) i k) (vid (m_n S2) i' k') ->
  (m_d S2 j j' < m_d S1 i i' - eps /\ m_d S2 k k' < m_d S1 i i' - eps
   \/ m_d S1 i i' + eps < m_d S2 j j' /\ m_d S1 i i' + eps < m_d S2 k k')%Z -> (j = k /\ j' = k') \/ (j = k' /\ j' = k).
Proof. exact both_one. Qed.
Print Assumptions C44_one_each_side_with_condition_partial.

Example C44_example : exists q, build_edges_metric_only pd_sort new_pygraph pair10 spread 1 = Ok (Ret q) /\ edges_fit q
  /\ neighbour q 1 5 /\ neighbour q 2 4 /\ ~ neighbour q 1 6 /\ next_to spread 1 (m_d pair10 0 1) (m_d spread 0 1).
Proof.
  eexists. split; [vm_compute; reflexivity|]. split; [vm_compute; reflexivity|]. split; [apply neighbourb_iff; vm_compute; reflexivity|].
  split; [apply neighbourb_iff; vm_compute; reflexivity|].
  split; [apply neighbourb_no; vm_compute; reflexivity|]. left. split; [vm_compute; reflexivity|]. intros k l (K & L & N).
  cbn in K, L. destruct k as [|[|[|k]]]; [| | |lia]; (destruct l as [|[|[|l]]]; [| | |lia]); try congruence; cbn; lia.
Qed.

(** * C45: of three pairs of set 2 at distance exactly 10, only one is matched with the pair of set 1 at distance 10. *)
Theorem C45_equal_distances_refuted : exists srt S1 S2 eps q i i' j j', sorts_dists srt /\ (0 <= eps)%Z /\ table_fits S2 /\ honest S1 /\ honest S2
  /\ build_edges_metric_only srt new_pygraph S1 S2 eps = Ok (Ret q) /\ edges_fit q /\ two S1 i i' /\ two S2 j j'
  /\ (Z.abs (m_d S1 i i' - m_d S2 j j') <= eps)%Z /\ ~ neighbour q (vid (m_n S2) i j) (vid (m_n S2) i' j').
Proof.
  exists pd_sort, pair10, equal3, 0%Z. eexists. exists 0, 1, 0, 1. split; [apply pd_sort_sorts|]. split; [discriminate|].
  split; [vm_compute; reflexivity|]. split; [intros _; apply lookup_sym|]. split; [intros _; apply lookup_sym|].
  split; [vm_compute; reflexivity|]. split; [vm_compute; reflexivity|]. split; [repeat split; cbn; auto|]. split; [repeat split; cbn; auto|].
  split; [discriminate|apply neighbourb_no; vm_compute; reflexivity].
Qed.
Print Assumptions C45_equal_distances_refuted.

(** Also with epsilon > 0. *)
Theorem C45_boundary_refuted : exists srt S1 S2 q i i' j j', sorts_dists srt /\ table_fits S2 /\ honest S1 /\ honest S2
  /\ build_edges_metric_only srt new_pygraph S1 S2 1 = Ok (Ret q) /\ edges_fit q /\ two S1 i i' /\ two S2 j j'
  /\ (Z.abs (m_d S1 i i' - m_d S2 j j') = 1)%Z /\ ~ neighbour q (vid (m_n S2) i j) (vid (m_n S2) i' j').
Proof.
  exists pd_sort, pair10, (tset 3 [(0, 1, 9%Z); (0, 2, 9%Z); (1, 2, 9%Z)]). eexists. exists 0, 1, 0, 1. split; [apply pd_sort_sorts|].
  split; [vm_compute; reflexivity|]. split; [intros _; apply lookup_sym|]. split; [intros _; apply lookup_sym|].
  split; [vm_compute; reflexivity|]. split; [vm_compute; reflexivity|]. split; [repeat split; cbn; auto|]. split; [repeat split; cbn; auto|].
  split; [reflexivity|apply neighbourb_no; vm_compute; reflexivity].
Qed.
Print Assumptions C45_boundary_refuted.

(** Full claim: all matches with |d1 - d2| <= epsilon are adjacent. What holds: those for which d2(j,j') is not the distance
    of another pair too. *)
Theorem C45_single_distance_partial : forall srt S1 S2 eps, sorts_dists srt -> table_fits S2 ->
  forall p q i i' j j', honest S1 -> honest S2 -> build_edges_metric_only srt p S1 S2 eps = Ok (Ret q) -> edges_fit q ->
  two S1 i i' -> two S2 j j' -> (Z.abs (m_d S1 i i' - m_d S2 j j') <= eps)%Z -> only S2 j j' ->
  neighbour q (vid (m_n S2) i j) (vid (m_n S2) i' j').
Proof. exact (fun srt S1 S2 eps Hs HT p q i i' j j' H1 H2 E F T1 T2 D O => metric_keeps srt S1 S2 eps Hs HT p q i i' j j' H1 H2 E F T1 T2 (or_intror (conj D O))). Qed.
Print Assumptions C45_single_distance_partial.

Example C45_example : exists q, build_edges_metric_only pd_sort new_pygraph pair10 spread 10 = Ok (Ret q) /\ edges_fit q
  /\ (Z.abs (m_d pair10 0 1 - m_d spread 0 2) = 10)%Z /\ only spread 0 2 /\ neighbour q 1 6.
Proof.
  eexists. split; [vm_compute; reflexivity|]. split; [vm_compute; reflexivity|]. split; [reflexivity|].
  split; [|apply neighbourb_iff; vm_compute; reflexivity]. intros k l (K & L & N).
  cbn in K, L. destruct k as [|[|[|k]]]; [| | |lia]; (destruct l as [|[|[|l]]]; [| | |lia]); try congruence; cbn; auto; discriminate.
Qed.

(** * C46, however the ends of the interval are rounded *)
Theorem C46_condition_respected : forall rnd srt S1 S2 eps, rises rnd -> sorts_dists srt -> table_fits S2 ->
  forall f p q i i' j j', build_edges_r rnd srt p S1 S2 eps f = Ok (Ret q) -> edges_fit q ->
  j < m_n S2 -> j' < m_n S2 -> neighbour q (vid (m_n S2) i j) (vid (m_n S2) i' j') ->
  (f i i' j j' = true \/ f i' i j' j = true) /\ (m_sym S1 = true -> i < i' -> f i i' j j' = true).
Proof. exact both_obeys_r. Qed.
Print Assumptions C46_condition_respected.

Example C46_example : exists q, build_edges pd_sort new_pygraph pair10 equal3 1 (fun i i' j j' => j =? 1) = Ok (Ret q) /\ edges_fit q
  /\ neighbour q 2 6 /\ neighbour q 6 2 /\ ~ neighbour q 1 6.
Proof.
  eexists. split; [vm_compute; reflexivity|]. split; [vm_compute; reflexivity|].
  split; [apply neighbourb_iff; vm_compute; reflexivity|]. split; [apply neighbourb_iff; vm_compute; reflexivity|].
  apply neighbourb_no. vm_compute. reflexivity.
Qed.

(** * C47: the condition accepts only increasing pairs of set 2; the reversed matches are adjacent as well. *)
Theorem C47_condition_only_refuted : exists n1 n2 f q i i' j j', build_edges_condition_only new_pygraph n1 n2 f = Ok (Ret q) /\ edges_fit q
  /\ i < i' < n1 /\ j < n2 /\ j' < n2 /\ j <> j' /\ neighbour q (vid n2 i j) (vid n2 i' j') /\ f i i' j j' = false.
Proof.
  exists 2, 2, (fun _ _ j j' => j <? j'). eexists. exists 0, 1, 1, 0. split; [vm_compute; reflexivity|]. split; [vm_compute; reflexivity|].
  do 4 (split; [lia|]). split; [apply neighbourb_iff; vm_compute; reflexivity|reflexivity].
Qed.
Print Assumptions C47_condition_only_refuted.

(** Pairs the condition accepts in decreasing order of set 2 only are lost. *)
Theorem C47_lost_edge_refuted : exists n1 n2 f q i i' j j', build_edges_condition_only new_pygraph n1 n2 f = Ok (Ret q) /\ edges_fit q
  /\ i < i' < n1 /\ j < n2 /\ j' < n2 /\ j <> j' /\ ~ neighbour q (vid n2 i j) (vid n2 i' j') /\ f i i' j j' = true.
Proof.
  exists 2, 2, (fun _ _ j j' => j' <? j). eexists. exists 0, 1, 1, 0. split; [vm_compute; reflexivity|]. split; [vm_compute; reflexivity|].
  do 4 (split; [lia|]). split; [apply neighbourb_no; vm_compute; reflexivity|reflexivity].
Qed.
Print Assumptions C47_lost_edge_refuted.

(** Full claim: adjacent iff f i i' j j'. What holds: the condition is asked with both pairs increasing. *)
Theorem C47_ordered_partial : forall p n1 n2 f q i i' j j', build_edges_condition_only p n1 n2 f = Ok (Ret q) -> edges_fit q ->
  i < i' < n1 -> j < n2 -> j' < n2 -> j <> j' ->
  (neighbour q (vid n2 i j) (vid n2 i' j') <-> f i i' (Nat.min j j') (Nat.max j j') = true).
Proof. exact cond_iff. Qed.
Print Assumptions C47_ordered_partial.

Theorem C47_total_partial : forall p n1 n2 f, fits (n1 * n2 + 1 + 4 * (n1 * n1 * (n2 * n2))) ->
  exists q, build_edges_condition_only p n1 n2 f = Ok (Ret q) /\ edges_fit q.
Proof. exact cond_total. Qed.
Print Assumptions C47_total_partial.

Example C47_example : exists q, build_edges_condition_only new_pygraph 3 3 (fun i i' j j' => (i + i' =? 3) && (j' =? 1)) = Ok (Ret q) /\ edges_fit q
  /\ neighbour q (vid 3 1 0) (vid 3 2 1) /\ neighbour q (vid 3 1 1) (vid 3 2 0) /\ ~ neighbour q (vid 3 0 0) (vid 3 1 1).
Proof.
  eexists. split; [vm_compute; reflexivity|]. split; [vm_compute; reflexivity|].
  split; [apply neighbourb_iff; vm_compute; reflexivity|]. split; [apply neighbourb_iff; vm_compute; reflexivity|].
  apply neighbourb_no. vm_compute. reflexivity.
Qed.

(** * C48 *)
Theorem C48_one_element_refuted : exists srt S1 S2 eps, sorts_dists srt /\ m_n S1 = 2 /\ m_n S2 = 1
  /\ build_edges_metric_only srt new_pygraph S1 S2 eps = UB OobRead.
Proof. exists pd_sort, pair10, (tset 1 []), 1%Z. split; [apply pd_sort_sorts|]. repeat split; vm_compute; reflexivity. Qed.
Print Assumptions C48_one_element_refuted.

Theorem C48_always_out_of_bounds : forall rnd srt S1 S2 eps, sorts_dists srt ->
  forall p f, 2 <= m_n S1 -> m_n S2 = 1 ->
  build_edges_metric_only_r rnd srt p S1 S2 eps = UB OobRead /\ build_edges_r rnd srt p S1 S2 eps f = UB OobRead.
Proof. exact one_element_r. Qed.
Print Assumptions C48_always_out_of_bounds.

(** Full claim: no out-of-bounds access for any sizes. What holds: all sizes except n1 >= 2, n2 = 1. *)
Theorem C48_other_sizes_partial : forall rnd srt S1 S2 eps, rises rnd -> sorts_dists srt -> table_fits S2 ->
  forall p f, fits (m_n S1 * m_n S2 + 1 + 4 * (m_n S1 * m_n S1 * (m_n S2 * m_n S2))) -> m_n S2 <> 1 \/ m_n S1 < 2 ->
  exists r r', build_edges_metric_only_r rnd srt p S1 S2 eps = Ok r /\ build_edges_r rnd srt p S1 S2 eps f = Ok r'
    /\ (m_n S1 = 0 \/ m_n S2 = 0 -> r = Raise EEmptySet /\ r' = Raise EEmptySet)
    /\ (1 <= m_n S1 -> 1 <= m_n S2 -> exists q q', r = Ret q /\ r' = Ret q' /\ edges_fit q /\ edges_fit q').
Proof. exact other_sizes_r. Qed.
Print Assumptions C48_other_sizes_partial.

Example C48_example : exists q, build_edges_metric_only pd_sort new_pygraph (tset 1 []) equal3 0 = Ok (Ret q) /\ p_nvert q = 3 /\ p_nedges q = 0.
Proof. eexists. split; [vm_compute; reflexivity|]. split; reflexivity. Qed.

(** * C49 *)
Theorem C49_iso_adjacency : forall s1 s2 n1 n2 adj1 adj2, made s1 n1 adj1 -> made s2 n2 adj2 ->
  forall p q i i' j j', build_edges_for_iso p s1 s2 = Ok (Ret q) -> edges_fit q ->
  1 <= i <= n1 -> 1 <= i' <= n1 -> 1 <= j <= n2 -> 1 <= j' <= n2 ->
  (neighbour q (vid n2 (i - 1) (j - 1)) (vid n2 (i' - 1) (j' - 1)) <-> i <> i' /\ j <> j' /\ (adj2 j j' -> adj1 i i')).
Proof. exact iso_iff. Qed.
Print Assumptions C49_iso_adjacency.

Theorem C49_total : forall s1 s2 n1 n2 adj1 adj2, made s1 n1 adj1 -> made s2 n2 adj2 ->
  forall p, 0 < n1 -> 0 < n2 -> fits (n1 * n2 + 1 + 4 * (n1 * n1 * (n2 * n2))) ->
  exists q, build_edges_for_iso p s1 s2 = Ok (Ret q) /\ edges_fit q.
Proof. exact iso_total. Qed.
Print Assumptions C49_total.

Example C49_example : made tri4 4 (adj_rows [(2, 3); (3, 4); (2, 4)]) /\ made tri3 3 (adj_rows [(1, 2); (2, 3); (1, 3)])
  /\ build_edges_for_iso new_pygraph tri4 tri3 = Ok (Ret (product tri4 tri3)) /\ edges_fit (product tri4 tri3)
  /\ neighbour (product tri4 tri3) (vid 3 (2 - 1) (1 - 1)) (vid 3 (4 - 1) (3 - 1))
  /\ ~ neighbour (product tri4 tri3) (vid 3 (1 - 1) (1 - 1)) (vid 3 (4 - 1) (3 - 1)).
Proof.
  split; [apply made_of; [reflexivity|vm_compute; reflexivity]|]. split; [apply made_of; [reflexivity|vm_compute; reflexivity]|].
  split; [vm_compute; reflexivity|]. split; [vm_compute; reflexivity|]. split; [apply neighbourb_iff; vm_compute; reflexivity|].
  apply neighbourb_no. vm_compute. reflexivity.
Qed.

(** * C50: no two matches are compatible, so the product has no edge and the search is undefined; [1] |-> [1] is an embedding. *)
Theorem C50_edgeless_product_refuted : exists s1 s2 adj1 adj2 q, made s1 2 adj1 /\ made s2 2 adj2
  /\ build_edges_for_iso new_pygraph s1 s2 = Ok (Ret q) /\ edges_fit q /\ storage_live q /\ embedding 2 adj1 2 adj2 [1] [1]
  /\ iso_get_correspondence (run_env None) q s2 1 DEFAULT_UB true true false = UB OobRead.
Proof.
  exists none2, full2, (adj_rows []), (adj_rows [(1, 2)]), (product none2 full2).
  split; [apply made_of; [reflexivity|vm_compute; reflexivity]|]. split; [apply made_of; [reflexivity|vm_compute; reflexivity]|].
  split; [vm_compute; reflexivity|]. split; [vm_compute; reflexivity|]. split; [apply liveb_sound; vm_compute; reflexivity|].
  split; [|vm_compute; reflexivity]. split; [reflexivity|]. split; [repeat constructor; intros []|]. split; [repeat constructor; intros []|].
  split; [intros x [<-|[]]; lia|]. split; [intros x [<-|[]]; lia|].
  intros k l K L [N _]. exfalso. apply N. cbn in K, L. destruct k, l; lia.
Qed.
Print Assumptions C50_edgeless_product_refuted.

(** Full claim: for all graphs with at least 2 vertices. What holds: all pairs of graphs whose product has an edge. *)
Theorem C50_maximum_embedding_partial : forall s1 s2 q n1 n2 adj1 adj2, made s1 n1 adj1 -> made s2 n2 adj2 ->
  build_edges_for_iso new_pygraph s1 s2 = Ok (Ret q) -> edges_fit q -> storage_live q ->
  forall e heur cont, (exists u v, neighbour q u v) -> permutes e -> untimed e -> (Z.of_nat n1 <= 65535 \/ Z.of_nat n2 <= 65535)%Z ->
  ends_with (iso_get_correspondence e q s2 1 DEFAULT_UB heur true cont) (fun r => exists a b, snd r = Ret (a, b)
    /\ embedding n1 adj1 n2 adj2 a b /\ forall a' b', embedding n1 adj1 n2 adj2 a' b' -> length a' <= length a).
Proof. exact iso_default. Qed.
Print Assumptions C50_maximum_embedding_partial.

(** Any answer, after any calls, with any clock, is an embedding. *)
Theorem C50_embeddings_partial : forall s1 s2 q n1 n2 adj1 adj2, made s1 n1 adj1 -> made s2 n2 adj2 ->
  build_edges_for_iso new_pygraph s1 s2 = Ok (Ret q) -> edges_fit q -> storage_live q ->
  forall q' e lb ub heur dfs cont, (exists u v, neighbour q u v) -> history q q' -> lawful e lb ->
  ends_with (iso_get_correspondence e q' s2 lb ub heur dfs cont) (fun r =>
    match snd r with
    | Ret (a, b) => embedding n1 adj1 n2 adj2 a b /\ lb <= length a
    | Raise x => x = EBounds
    end).
Proof. exact iso_answers. Qed.
Print Assumptions C50_embeddings_partial.

Example C50_example : storage_live (product tri4 tri3) /\ (exists u v, neighbour (product tri4 tri3) u v)
  /\ permutes (run_env None) /\ untimed (run_env None)
  /\ exists q, iso_get_correspondence (run_env None) (product tri4 tri3) tri3 1 DEFAULT_UB true true false = Ok (q, Ret ([2; 3; 4], [1; 2; 3])).
Proof.
  split; [apply liveb_sound; vm_compute; reflexivity|]. split; [exists 4, 8; apply neighbourb_iff; vm_compute; reflexivity|].
  split; [apply run_env_sorts|]. split; [reflexivity|]. eexists. vm_compute. reflexivity.
Qed.

(** * C51: the triangle 1-2-3 matched with the triangle 2-3-4. Vertices 1 and 2 of the second graph, 2 and 3 of the first are
    matched neighbours, but the dictionaries omit them. *)
Theorem C51_missing_neighbour_refuted : exists s1 s2 rows1 rows2 q q' G1 G2 m l, made s1 4 (adj_rows rows1) /\ made s2 3 (adj_rows rows2)
  /\ build_edges_for_iso new_pygraph s1 s2 = Ok (Ret q) /\ storage_live q
  /\ iso_get_correspondence (run_env None) q s2 1 DEFAULT_UB true true false = Ok (q', Ret ([2; 3; 4], [1; 2; 3]))
  /\ iso_get_dicts (run_env None) q s2 1 DEFAULT_UB true true false = Ok (q', Ret (G1, G2, m))
  /\ adj_rows rows2 2 1 /\ dget G2 2 = Some l /\ ~ In 1 l /\ adj_rows rows1 3 2 /\ dget G1 3 = Some [4].
Proof.
  exists tri4, tri3, [(2, 3); (3, 4); (2, 4)], [(1, 2); (2, 3); (1, 3)], (product tri4 tri3). do 5 eexists.
  split; [apply made_of; [reflexivity|vm_compute; reflexivity]|]. split; [apply made_of; [reflexivity|vm_compute; reflexivity]|].
  split; [vm_compute; reflexivity|]. split; [apply liveb_sound; vm_compute; reflexivity|].
  split; [vm_compute; reflexivity|]. split; [vm_compute; reflexivity|].
  split; [split; [discriminate|right; left; auto]|]. split; [vm_compute; reflexivity|]. split; [intros [X|[]]; discriminate|].
  split; [split; [discriminate|right; left; auto]|]. vm_compute. reflexivity.
Qed.
Print Assumptions C51_missing_neighbour_refuted.

(** The call can also fail with KeyError: the triangle 2-3-4 and the complete graph on 4 vertices. *)
Theorem C51_key_error_refuted : exists s1 s2 rows1 rows2 q q', made s1 4 (adj_rows rows1) /\ made s2 4 (adj_rows rows2)
  /\ build_edges_for_iso new_pygraph s1 s2 = Ok (Ret q) /\ storage_live q
  /\ iso_get_correspondence (run_env None) q s2 1 DEFAULT_UB true true false = Ok (q', Ret ([2; 3; 4], [1; 2; 3]))
  /\ iso_get_dicts (run_env None) q s2 1 DEFAULT_UB true true false = Ok (q', Raise EKeyError).
Proof.
  exists tri4, full4, [(2, 3); (3, 4); (2, 4)], [(1, 2); (2, 3); (1, 3); (1, 4); (2, 4); (3, 4)], (product tri4 full4). eexists.
  split; [apply made_of; [reflexivity|vm_compute; reflexivity]|]. split; [apply made_of; [reflexivity|vm_compute; reflexivity]|].
  split; [vm_compute; reflexivity|]. split; [apply liveb_sound; vm_compute; reflexivity|].
  split; vm_compute; reflexivity.
Qed.
Print Assumptions C51_key_error_refuted.

(** Full claim: for every answer the dictionaries list the matched neighbours of each matched vertex in its own graph. What
    holds, for the answer (a, b) of any call after any earlier calls: if some number matched in graph 1 is, in graph 2, a
    neighbour of a matched vertex without being matched itself, KeyError is raised; if not, three dictionaries are returned;
    and they are right exactly if the neighbours of matched vertices of graph 2 that are matched in graph 2 have the numbers
    that are matched in graph 1 and matched vertices are adjacent in graph 1 only if they are in graph 2. *)
Theorem C51_when_right_partial : forall s1 s2 q n1 n2 adj1 adj2, made s1 n1 adj1 -> made s2 n2 adj2 ->
  build_edges_for_iso new_pygraph s1 s2 = Ok (Ret q) -> edges_fit q -> storage_live q ->
  forall q' e lb ub heur dfs cont, (exists u v, neighbour q u v) -> history q q' -> lawful e lb ->
  ends_with (iso_get_correspondence e q' s2 lb ub heur dfs cont) (fun r => exists d,
    iso_get_dicts e q' s2 lb ub heur dfs cont = Ok (fst r, d)
    /\ match snd r with
       | Raise x => d = Raise x
       | Ret (a, b) =>
           (stray adj2 a b -> d = Raise EKeyError)
           /\ (~ stray adj2 a b -> exists G1 G2 m, d = Ret (G1, G2, m))
           /\ ((exists G1 G2 m, d = Ret (G1, G2, m) /\ describes adj1 adj2 a b G1 G2 m) <-> same_numbers adj2 a b /\ no_more_edges adj1 adj2 a b)
       end).
Proof. exact iso_dicts. Qed.
Print Assumptions C51_when_right_partial.

(** What the dictionaries contain when they are returned, right or not: G2 gives the neighbours in graph 2 whose numbers are
    matched in graph 1, and G1 the vertices matched with those. *)
Theorem C51_contents_partial : forall s2 n2 adj2, made s2 n2 adj2 -> forall a b, length a = length b -> NoDup a -> NoDup b ->
  (forall y, In y b -> 1 <= y <= n2) -> ~ stray adj2 a b ->
  exists G1 G2 m, format_correspondence s2 a b = Ok (Ret (G1, G2, m))
    /\ (forall k, k < length a -> dget m (nth k a 0) = Some (nth k b 0)
          /\ (exists l, dget G2 (nth k b 0) = Some l /\ forall z, In z l <-> In z a /\ adj2 (nth k b 0) z)
          /\ (exists l, dget G1 (nth k a 0) = Some l
               /\ forall x, In x l <-> exists t, t < length a /\ x = nth t a 0 /\ In (nth t b 0) a /\ adj2 (nth k b 0) (nth t b 0)))
    /\ (forall x, ~ In x a -> dget m x = None /\ dget G1 x = None) /\ (forall y, ~ In y b -> dget G2 y = None).
Proof. exact format_contents. Qed.
Print Assumptions C51_contents_partial.

Example C51_example : stray (adj_rows [(1, 2); (1, 3); (2, 3); (1, 4); (2, 4); (3, 4)]) [2; 3; 4] [1; 2; 3]
  /\ ~ stray (adj_rows [(1, 2); (2, 3); (1, 3)]) [2; 3; 4] [1; 2; 3] /\ ~ same_numbers (adj_rows [(1, 2); (2, 3); (1, 3)]) [2; 3; 4] [1; 2; 3]
  /\ format_correspondence tri3 [2; 3; 4] [1; 2; 3]
     = Ok (Ret ([(2, [3; 4]); (3, [4]); (4, [3])], [(1, [2; 3]); (2, [3]); (3, [2])], [(2, 1); (3, 2); (4, 3)]))
  /\ same_numbers (adj_rows [(1, 2); (1, 3); (2, 3); (1, 4); (2, 4); (3, 4)]) [2; 3; 4; 1] [3; 4; 2; 1]
  /\ format_correspondence full4 [2; 3; 4] [3; 4; 2]
  = Ok (Ret ([(2, [4; 3]); (3, [4; 2]); (4, [2; 3])], [(3, [2; 4]); (4, [2; 3]); (2, [3; 4])], [(2, 3); (3, 4); (4, 2)])).
Proof.
  split; [exists 3, 4; split; [cbn; auto|]; split; [split; [discriminate|cbn; auto 10]|]; split; [cbn; auto|intros [X|[X|[X|[]]]]; discriminate]|].
  split.
  { intros (y & z & Iy & (_ & A) & Iz & N). apply N. cbn in A, Iz |- *.
    repeat match goal with H : _ \/ _ |- _ => destruct H as [H|H] end; try contradiction; try congruence; inversion A; subst; auto. }
  split; [intros SN; assert (A : adj_rows [(1, 2); (2, 3); (1, 3)] 2 1) by (split; [discriminate|right; cbn; auto]);
          apply (SN 2 1 ltac:(cbn; auto)) in A; destruct A as [_ A]; destruct (A ltac:(cbn; auto)) as [X|[X|[X|[]]]]; discriminate|].
  split; [vm_compute; reflexivity|]. split; [|vm_compute; reflexivity].
  intros y z _ _. cbn. intuition.
Qed.
