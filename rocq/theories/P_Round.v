(** P_Round: the metric builders in floating-point arithmetic (C69, C70). *)
From Verif Require Import Base MBits MUtils MGraph MHeur MStack MRec MEnum MApi MExt MPy Spec SpecRound ExtFacts ExtProps ExtSamples RoundFacts RoundProps RoundSamples.

(** * C69: distances 10 and 9.9 differ, as doubles, by less than the double 0.1; but 10 - 0.1 is rounded to 9.9, and of three pairs
    at that distance only some are matched. *)
Theorem C69_lost_refuted : exists rnd srt S1 S2 eps q i i' j j', nearest rnd /\ sorts_dists srt /\ (0 < eps)%Z /\ double eps
  /\ measured S1 /\ measured S2 /\ table_fits S2 /\ honest S1 /\ honest S2
  /\ build_edges_metric_only_r rnd srt new_pygraph S1 S2 eps = Ok (Ret q) /\ edges_fit q /\ two S1 i i' /\ two S2 j j'
  /\ (Z.abs (m_d S1 i i' - m_d S2 j j') < eps)%Z /\ ~ neighbour q (vid (m_n S2) i j) (vid (m_n S2) i' j').
Proof.
  exists half_even, pd_sort, at10, equal9_9, d0_1. eexists. exists 0, 1, 0, 1. split; [apply half_even_nearest|]. split; [apply pd_sort_sorts|].
  split; [vm_compute; reflexivity|]. split; [apply d0_1_double|]. split; [apply at10_measured|]. split; [apply equal9_9_measured|].
  split; [vm_compute; reflexivity|]. split; [intros _; apply lookup_sym|]. split; [intros _; apply lookup_sym|].
  split; [vm_compute; reflexivity|]. split; [vm_compute; reflexivity|]. split; [repeat split; cbn; auto|]. split; [repeat split; cbn; auto|].
  split; [vm_compute; reflexivity|apply neighbourb_no; vm_compute; reflexivity].
Qed.
Print Assumptions C69_lost_refuted.

(** Full claim: matches whose distances differ by less than epsilon are adjacent. What holds: they are if they differ by at most
    epsilon, and d2(j,j') is the distance of no other pair of set 2, or is neither of the two rounded ends of the interval; ... *)
Theorem C69_kept_partial : forall rnd srt S1 S2 eps, nearest rnd -> sorts_dists srt -> table_fits S2 -> (0 <= eps)%Z -> double eps ->
  forall p q i i' j j', measured S1 -> measured S2 -> honest S1 -> honest S2 ->
  build_edges_metric_only_r rnd srt p S1 S2 eps = Ok (Ret q) -> edges_fit q -> two S1 i i' -> two S2 j j' ->
  (Z.abs (m_d S1 i i' - m_d S2 j j') <= eps)%Z ->
  only S2 j j' \/ (m_d S2 j j' <> rnd (m_d S1 i i' - eps) /\ m_d S2 j j' <> rnd (rnd (m_d S1 i i' - eps) + 2 * eps))%Z ->
  neighbour q (vid (m_n S2) i j) (vid (m_n S2) i' j').
Proof. exact metric_rounded. Qed.
Print Assumptions C69_kept_partial.

(** ... and they are, whatever other pairs there are, if the difference is smaller than epsilon by more than
    3 * 2^-53 * (d1(i,i') + epsilon). *)
Theorem C69_well_inside_partial : forall rnd srt S1 S2 eps, nearest rnd -> sorts_dists srt -> table_fits S2 -> (0 <= eps)%Z ->
  forall p q i i' j j', measured S1 -> measured S2 -> honest S1 -> honest S2 ->
  build_edges_metric_only_r rnd srt p S1 S2 eps = Ok (Ret q) -> edges_fit q -> two S1 i i' -> two S2 j j' ->
  well_inside eps (m_d S1 i i') (m_d S2 j j') -> neighbour q (vid (m_n S2) i j) (vid (m_n S2) i' j').
Proof. exact metric_inside. Qed.
Print Assumptions C69_well_inside_partial.

(** The same two with a condition as well *)
Theorem C69_kept_with_condition_partial : forall rnd srt S1 S2 eps, nearest rnd -> sorts_dists srt -> table_fits S2 -> (0 <= eps)%Z ->
  forall f p q i i' j j', measured S1 -> measured S2 -> honest S1 -> honest S2 ->
  build_edges_r rnd srt p S1 S2 eps f = Ok (Ret q) -> edges_fit q -> two S1 i i' -> two S2 j j' ->
  (m_sym S1 = false \/ i < i' -> f i i' j j' = true) -> (m_sym S1 = true /\ i' < i -> f i' i j' j = true) ->
  double eps /\ (Z.abs (m_d S1 i i' - m_d S2 j j') <= eps)%Z
    /\ (only S2 j j' \/ (m_d S2 j j' <> rnd (m_d S1 i i' - eps) /\ m_d S2 j j' <> rnd (rnd (m_d S1 i i' - eps) + 2 * eps))%Z)
  \/ well_inside eps (m_d S1 i i') (m_d S2 j j') ->
  neighbour q (vid (m_n S2) i j) (vid (m_n S2) i' j').
Proof. exact round_keeps. Qed.
Print Assumptions C69_kept_with_condition_partial.

Example C69_example : exists q, nearest half_even /\ build_edges_metric_only_r half_even pd_sort new_pygraph at10 mixed d0_1 = Ok (Ret q)
  /\ edges_fit q /\ measured at10 /\ measured mixed /\ double d0_1
  /\ (Z.abs (m_d at10 0 1 - m_d mixed 0 1) <= d0_1)%Z /\ only mixed 0 1 /\ m_d mixed 0 1 = half_even (d10 - d0_1) /\ neighbour q 1 5
  /\ well_inside d0_1 (m_d at10 0 1) (m_d mixed 0 2) /\ neighbour q 1 6 /\ ~ neighbour q 2 6.
Proof.
  eexists. split; [apply half_even_nearest|]. split; [vm_compute; reflexivity|]. split; [vm_compute; reflexivity|].
  split; [apply at10_measured|]. split; [apply mixed_measured|]. split; [apply d0_1_double|]. split; [vm_compute; discriminate|].
  split; [|split; [vm_compute; reflexivity|split; [apply neighbourb_iff; vm_compute; reflexivity|]]].
  - intros k l (K & L & N) E. cbn in K, L. destruct k as [|[|[|k]]]; [| | |lia]; (destruct l as [|[|[|l]]]; [| | |lia]); try congruence; vm_compute in E; try discriminate; auto.
  - split; [vm_compute; reflexivity|]. split; [apply neighbourb_iff; vm_compute; reflexivity|apply neighbourb_no; vm_compute; reflexivity].
Qed.

(** * C70 *)
Theorem C70_extra_matches : forall rnd srt S1 S2 eps, nearest rnd -> sorts_dists srt -> table_fits S2 -> (0 <= eps)%Z ->
  forall f p q i i' j j', measured S1 -> measured S2 -> double eps ->
  (forall k l, m_d S1 k l = m_d S1 l k) -> (forall k l, m_d S2 k l = m_d S2 l k) ->
  build_edges_r rnd srt p S1 S2 eps f = Ok (Ret q) -> edges_fit q ->
  j < m_n S2 -> j' < m_n S2 -> neighbour q (vid (m_n S2) i j) (vid (m_n S2) i' j') ->
  two S1 i i' /\ j <> j'
  /\ (about eps (m_d S1 i i') (m_d S2 j j')
      \/ (m_d S2 j j' < m_d S1 i i' - eps)%Z /\ (forall k l, two S2 k l -> m_d S2 k l <= m_d S2 j j' \/ m_d S1 i i' - eps < m_d S2 k l)%Z
      \/ (m_d S1 i i' + eps < m_d S2 j j')%Z /\ (forall k l, two S2 k l -> (m_d S2 j j' <= m_d S2 k l)%Z \/ (m_d S2 k l < m_d S1 i i')%Z \/ about eps (m_d S1 i i') (m_d S2 k l))).
Proof. exact round_adds. Qed.
Print Assumptions C70_extra_matches.

Theorem C70_one_each_side : forall rnd srt S1 S2 eps, nearest rnd -> sorts_dists srt -> table_fits S2 -> (0 <= eps)%Z ->
  forall f p q i i' j j' k k', measured S1 -> measured S2 -> two S1 i i' ->
  (forall x y, m_d S1 x y = m_d S1 y x) -> (forall x y, m_d S2 x y = m_d S2 y x) ->
  build_edges_r rnd srt p S1 S2 eps f = Ok (Ret q) -> edges_fit q -> two S2 j j' -> two S2 k k' ->
  neighbour q (vid (m_n S2) i j) (vid (m_n S2) i' j') -> neighbour q (vid (m_n S2) i k) (vid (m_n S2) i' k') ->
  ~ about eps (m_d S1 i i') (m_d S2 j j') -> ~ about eps (m_d S1 i i') (m_d S2 k k') ->
  (m_d S2 j j' < m_d S1 i i' <-> m_d S2 k k' < m_d S1 i i')%Z -> (j = k /\ j' = k') \/ (j = k' /\ j' = k).
Proof. exact round_one. Qed.
Print Assumptions C70_one_each_side.

(** The same two without a condition *)
Theorem C70_extra_matches_metric : forall rnd srt S1 S2 eps, nearest rnd -> sorts_dists srt -> table_fits S2 -> (0 <= eps)%Z ->
  forall p q i i' j j', measured S1 -> measured S2 -> double eps ->
  (forall k l, m_d S1 k l = m_d S1 l k) -> (forall k l, m_d S2 k l = m_d S2 l k) ->
  build_edges_metric_only_r rnd srt p S1 S2 eps = Ok (Ret q) -> edges_fit q ->
  j < m_n S2 -> j' < m_n S2 -> neighbour q (vid (m_n S2) i j) (vid (m_n S2) i' j') ->
  two S1 i i' /\ j <> j'
  /\ (about eps (m_d S1 i i') (m_d S2 j j')
      \/ (m_d S2 j j' < m_d S1 i i' - eps)%Z /\ (forall k l, two S2 k l -> m_d S2 k l <= m_d S2 j j' \/ m_d S1 i i' - eps < m_d S2 k l)%Z
      \/ (m_d S1 i i' + eps < m_d S2 j j')%Z /\ (forall k l, two S2 k l -> (m_d S2 j j' <= m_d S2 k l)%Z \/ (m_d S2 k l < m_d S1 i i')%Z \/ about eps (m_d S1 i i') (m_d S2 k l))).
Proof. exact (fun rnd srt S1 S2 eps Hn Hs HT Pe => round_adds rnd srt S1 S2 eps Hn Hs HT Pe (fun _ _ _ _ => true)). Qed.
Print Assumptions C70_extra_matches_metric.

Theorem C70_one_each_side_metric : forall rnd srt S1 S2 eps, nearest rnd -> sorts_dists srt -> table_fits S2 -> (0 <= eps)%Z ->
  forall p q i i' j j' k k', measured S1 -> measured S2 -> two S1 i i' ->
  (forall x y, m_d S1 x y = m_d S1 y x) -> (forall x y, m_d S2 x y = m_d S2 y x) ->
  build_edges_metric_only_r rnd srt p S1 S2 eps = Ok (Ret q) -> edges_fit q -> two S2 j j' -> two S2 k k' ->
  neighbour q (vid (m_n S2) i j) (vid (m_n S2) i' j') -> neighbour q (vid (m_n S2) i k) (vid (m_n S2) i' k') ->
  ~ about eps (m_d S1 i i') (m_d S2 j j') -> ~ about eps (m_d S1 i i') (m_d S2 k k') ->
  (m_d S2 j j' < m_d S1 i i' <-> m_d S2 k k' < m_d S1 i i')%Z -> (j = k /\ j' = k') \/ (j = k' /\ j' = k).
Proof. exact (fun rnd srt S1 S2 eps Hn Hs HT Pe => round_one rnd srt S1 S2 eps Hn Hs HT Pe (fun _ _ _ _ => true)). Qed.
Print Assumptions C70_one_each_side_metric.

(** Around 7.3 with epsilon 0.1 there is no distance in [equal9_9]; one of its pairs is matched all the same. *)
Example C70_example : exists q, build_edges_r half_even pd_sort new_pygraph (tset 2 [(0, 1, d7_3)]) equal9_9 d0_1 (fun _ _ _ _ => true) = Ok (Ret q)
  /\ edges_fit q /\ neighbour q 1 5 /\ ~ about d0_1 d7_3 (m_d equal9_9 0 1) /\ ~ neighbour q 1 6 /\ ~ neighbour q 2 6.
Proof.
  eexists. split; [vm_compute; reflexivity|]. split; [vm_compute; reflexivity|]. split; [apply neighbourb_iff; vm_compute; reflexivity|].
  split; [vm_compute; intros A; apply A; reflexivity|]. split; apply neighbourb_no; vm_compute; reflexivity.
Qed.
