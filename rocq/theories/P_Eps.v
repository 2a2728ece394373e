(** P_Eps (C92): what a larger epsilon, or a weaker condition, does to the graph and to the largest correspondence. *)
From Verif Require Import Base MBits MUtils MGraph MHeur MStack MRec MEnum MApi MExt MPy Spec SpecDec SpecRound ExtFacts ExtProps ExtSamples RoundFacts RoundSamples EpsFacts EpsProps.
Local Open Scope nat_scope.

(** * C92: if epsilon is not made smaller and the condition accepts no less, no two matches cease to be adjacent. Holds of the matches
    beside the interval too (C44), and whatever distances are repeated (C45). *)
Theorem C92_larger_epsilon : forall srt S1 S2 f f' eps eps', sorts_dists srt -> table_fits S2 -> (eps <= eps')%Z ->
  (forall i i' j j', f i i' j j' = true -> f' i i' j j' = true) ->
  forall p p' q q' u v, build_edges srt p S1 S2 eps f = Ok (Ret q) -> edges_fit q -> build_edges srt p' S1 S2 eps' f' = Ok (Ret q') -> edges_fit q' ->
  neighbour q u v -> neighbour q' u v.
Proof. exact epsilon_grows. Qed.
Print Assumptions C92_larger_epsilon.

Theorem C92_larger_epsilon_metric : forall srt S1 S2 eps eps', sorts_dists srt -> table_fits S2 -> (eps <= eps')%Z ->
  forall p p' q q' u v, build_edges_metric_only srt p S1 S2 eps = Ok (Ret q) -> edges_fit q ->
  build_edges_metric_only srt p' S1 S2 eps' = Ok (Ret q') -> edges_fit q' -> neighbour q u v -> neighbour q' u v.
Proof.
  exact (fun srt S1 S2 eps eps' Hs HT He => epsilon_grows srt S1 S2 (fun _ _ _ _ => true) (fun _ _ _ _ => true) eps eps' Hs HT He (fun _ _ _ _ H => H)).
Qed.
Print Assumptions C92_larger_epsilon_metric.

(** So the largest correspondence of the second graph is at least as large as that of the first. *)
Theorem C92_maximum : forall srt S1 S2 f f' eps eps', sorts_dists srt -> table_fits S2 -> (eps <= eps')%Z ->
  (forall i i' j j', f i i' j j' = true -> f' i i' j j' = true) ->
  forall q q', build_edges srt new_pygraph S1 S2 eps f = Ok (Ret q) -> edges_fit q -> storage_live q ->
  build_edges srt new_pygraph S1 S2 eps' f' = Ok (Ret q') -> edges_fit q' -> storage_live q' -> (exists u v, neighbour q u v) ->
  forall e e' ub ub' heur heur' cont cont', permutes e -> never_late e -> permutes e' -> never_late e' ->
  m_n S1 <= ub \/ m_n S2 <= ub -> m_n S1 <= ub' \/ m_n S2 <= ub' ->
  exists r r' a b a' b', get_correspondence e q (m_n S2) 1 ub heur true cont = Ok (r, Ret (a, b))
    /\ get_correspondence e' q' (m_n S2) 1 ub' heur' true cont' = Ok (r', Ret (a', b')) /\ length a <= length a'.
Proof. exact two_maxima. Qed.
Print Assumptions C92_maximum.

(** In floating-point arithmetic with one epsilon: a condition only ever removes edges. *)
Theorem C92_condition : forall rnd srt S1 S2 f f' eps, rises rnd -> sorts_dists srt -> table_fits S2 ->
  (forall i i' j j', f i i' j j' = true -> f' i i' j j' = true) ->
  forall p p' q q' u v, build_edges_r rnd srt p S1 S2 eps f = Ok (Ret q) -> edges_fit q -> build_edges_r rnd srt p' S1 S2 eps f' = Ok (Ret q') -> edges_fit q' ->
  neighbour q u v -> neighbour q' u v.
Proof. exact condition_grows. Qed.
Print Assumptions C92_condition.

(** False in floating-point arithmetic: three pairs at exactly the distance looked for. A larger epsilon lowers the upper end of the
    interval (a - epsilon is rounded down further than before), and one of the three is no longer matched. *)
Theorem C92_rounding_refuted : exists rnd srt S1 S2 eps eps' q q' i i' j j', nearest rnd /\ sorts_dists srt /\ (0 < eps < eps')%Z /\ double eps /\ double eps'
  /\ measured S1 /\ measured S2 /\ table_fits S2 /\ honest S1 /\ honest S2
  /\ build_edges_metric_only_r rnd srt new_pygraph S1 S2 eps = Ok (Ret q) /\ edges_fit q
  /\ build_edges_metric_only_r rnd srt new_pygraph S1 S2 eps' = Ok (Ret q') /\ edges_fit q'
  /\ m_d S1 i i' = m_d S2 j j' /\ neighbour q (vid (m_n S2) i j) (vid (m_n S2) i' j') /\ ~ neighbour q' (vid (m_n S2) i j) (vid (m_n S2) i' j').
Proof.
  exists half_even, pd_sort, fine2, fine3, 1%Z, 2%Z. do 2 eexists. exists 0, 1, 1, 2. split; [apply half_even_nearest|]. split; [apply pd_sort_sorts|].
  split; [vm_compute; auto|]. split; [apply one_double|]. split; [apply two_double|]. split; [apply fine2_measured|]. split; [apply fine3_measured|].
  split; [vm_compute; reflexivity|]. split; [intros _; apply lookup_sym|]. split; [intros _; apply lookup_sym|].
  split; [vm_compute; reflexivity|]. split; [vm_compute; reflexivity|]. split; [vm_compute; reflexivity|]. split; [vm_compute; reflexivity|].
  split; [vm_compute; reflexivity|]. split; [apply neighbourb_iff; vm_compute; reflexivity|apply neighbourb_no; vm_compute; reflexivity].
Qed.
Print Assumptions C92_rounding_refuted.

(** Full claim: for any two epsilons in floating-point arithmetic. What holds: if subtracting them from the distances of set 1 needs no rounding. *)
Theorem C92_rounding_partial : forall rnd srt S1 S2 f f' eps eps', rises rnd -> sorts_dists srt -> table_fits S2 -> (eps <= eps')%Z ->
  (forall i i' j j', f i i' j j' = true -> f' i i' j j' = true) ->
  (forall i i', two S1 i i' -> rnd (m_d S1 i i' - eps) = m_d S1 i i' - eps /\ rnd (m_d S1 i i' - eps') = m_d S1 i i' - eps')%Z ->
  forall p p' q q' u v, build_edges_r rnd srt p S1 S2 eps f = Ok (Ret q) -> edges_fit q -> build_edges_r rnd srt p' S1 S2 eps' f' = Ok (Ret q') -> edges_fit q' ->
  neighbour q u v -> neighbour q' u v.
Proof. exact epsilon_grows_r. Qed.
Print Assumptions C92_rounding_partial.

(** An edge from beside the interval that is kept; and one that is new. *)
Example C92_example : exists q q', build_edges pd_sort new_pygraph pair10 spread 1 (fun _ _ _ _ => true) = Ok (Ret q) /\ edges_fit q /\ storage_live q
  /\ build_edges pd_sort new_pygraph pair10 spread 10 (fun _ _ _ _ => true) = Ok (Ret q') /\ edges_fit q' /\ storage_live q'
  /\ neighbour q 1 5 /\ ~ neighbour q 1 6 /\ neighbour q' 1 5 /\ neighbour q' 1 6
  /\ exists r r', get_correspondence (run_env None) q 3 1 2 true true false = Ok (r, Ret ([0; 1], [0; 1]))
       /\ get_correspondence (run_env None) q' 3 1 2 true true false = Ok (r', Ret ([0; 1], [1; 0])).
Proof.
  do 2 eexists. split; [vm_compute; reflexivity|]. split; [vm_compute; reflexivity|]. split; [apply liveb_sound; vm_compute; reflexivity|].
  split; [vm_compute; reflexivity|]. split; [vm_compute; reflexivity|]. split; [apply liveb_sound; vm_compute; reflexivity|].
  split; [apply neighbourb_iff; vm_compute; reflexivity|]. split; [apply neighbourb_no; vm_compute; reflexivity|].
  split; [apply neighbourb_iff; vm_compute; reflexivity|]. split; [apply neighbourb_iff; vm_compute; reflexivity|].
  do 2 eexists. split; vm_compute; reflexivity.
Qed.
