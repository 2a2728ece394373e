(** P_Beside: two graphs side by side (C108). *)
From Verif Require Import Base MUtils MGraph MEnum MApi MNW MNWEnum MNWApi MExt Spec SpecDec SpecNW SpecBeside SpecRound NWRoundFacts NWProps LoadFacts SearchProps Samples ExtSamples FirstSamples NWSamples BesideFacts BesideLists BesideSamples.
Local Open Scope nat_scope.

(** The largest clique of two graphs side by side is as large as the larger of their largest cliques. *)
Theorem C108_size : forall p1 p2 p n1 n2 adj1 adj2 adj, beside n1 adj1 adj2 adj -> made p1 n1 adj1 -> made p2 n2 adj2 -> made p (n1 + n2) adj ->
  storage_live p1 -> storage_live p2 -> storage_live p ->
  forall e1 e2 e lb1 lb2 lb ub1 ub2 ub heur1 heur2 heur cont1 cont2 cont q1 q2 q c1 c2 c, has_edge adj1 -> has_edge adj2 ->
  permutes e1 -> permutes e2 -> permutes e -> never_late e1 -> never_late e2 -> never_late e ->
  (forall d, clique n1 adj1 d -> length d <= ub1) -> (forall d, clique n2 adj2 d -> length d <= ub2) -> (forall d, clique (n1 + n2) adj d -> length d <= ub) ->
  get_max_clique e1 p1 lb1 ub1 heur1 true cont1 = Ok (q1, Ret c1) -> get_max_clique e2 p2 lb2 ub2 heur2 true cont2 = Ok (q2, Ret c2) ->
  get_max_clique e p lb ub heur true cont = Ok (q, Ret c) -> length c = Nat.max (length c1) (length c2).
Proof. exact beside_size. Qed.
Print Assumptions C108_size.

(** With the heuristic alone (use_dfs off) it can be smaller: the triangle, found when alone, is not found next to the other graph. *)
Theorem C108_heuristic_refuted : exists rows1 n1 p1 rows2 n2 p2 rows p e c1 c2 c, beside n1 (adj_rows rows1) (adj_rows rows2) (adj_rows rows)
  /\ from_edgelist rows1 n1 = Ok (Ret p1) /\ from_edgelist rows2 n2 = Ok (Ret p2) /\ from_edgelist rows (n1 + n2) = Ok (Ret p)
  /\ storage_live p1 /\ storage_live p2 /\ storage_live p /\ sorts e /\ untimed e
  /\ answer (get_max_clique e p1 1 DEFAULT_UB true false false) = Ok (Ret c1)
  /\ answer (get_max_clique e p2 1 DEFAULT_UB true false false) = Ok (Ret c2)
  /\ answer (get_max_clique e p 1 DEFAULT_UB true false false) = Ok (Ret c)
  /\ length c < Nat.max (length c1) (length c2).
Proof. exact heuristic_beside. Qed.
Print Assumptions C108_heuristic_refuted.

(** all_cliques(k) lists those of the first graph, then those of the second that are not listed for the second graph alone, then those that are. *)
Theorem C108_list : forall p1 p2 p n1 n2 adj1 adj2 adj, beside n1 adj1 adj2 adj -> made p1 n1 adj1 -> made p2 n2 adj2 -> made p (n1 + n2) adj ->
  storage_live p1 -> storage_live p2 -> storage_live p ->
  forall lr1 lr2 lr k, 1 <= n1 -> 1 <= n2 -> 2 <= k -> exists a1 a2 a q1 en1 l1 q2 en2 l2 q en l x,
    all_cliques p1 k = Ret a1 /\ all_cliques p2 k = Ret a2 /\ all_cliques p k = Ret a
    /\ (forall fuel, length l1 < fuel -> drain fuel lr1 p1 a1 = Ok (q1, en1, l1)) /\ (forall fuel, length l2 < fuel -> drain fuel lr2 p2 a2 = Ok (q2, en2, l2))
    /\ (forall fuel, length l < fuel -> drain fuel lr p a = Ok (q, en, l))
    /\ l = l1 ++ map (shift n1) (x ++ l2) /\ forall d, In d x <-> clique n2 adj2 d /\ length d = k /\ first_at_1 adj2 d.
Proof. exact beside_list. Qed.
Print Assumptions C108_list.

(** Behind vertices without edges, all_cliques(k) lists every clique of k vertices, once. *)
Theorem C108_complete : forall p m n adj2 adj lr k, beside m (fun _ _ => False) adj2 adj -> simple n adj2 -> made p (m + n) adj -> storage_live p -> 1 <= m -> 2 <= k ->
  exists a q en l, all_cliques p k = Ret a /\ (forall fuel, length l < fuel -> drain fuel lr p a = Ok (q, en, l)) /\ NoDup l
    /\ forall d, In d l <-> exists c, d = shift m c /\ clique n adj2 c /\ length c = k.
Proof. exact behind_complete. Qed.
Print Assumptions C108_complete.

(** NWGraph: the heaviest clique weighs as much as the heavier of the two. *)
(** Missing: negative weights, rounded sums, answers of one vertex. *)
Theorem C108_weight_partial : forall rnd p1 p2 p n1 n2 adj1 adj2 adj w1 w2 w, beside n1 adj1 adj2 adj -> weights_beside n1 w1 w2 w ->
  nmade rnd p1 n1 adj1 w1 -> nmade rnd p2 n2 adj2 w2 -> nmade rnd p (n1 + n2) adj w -> has_edge adj1 -> has_edge adj2 ->
  nstorage_live p1 -> nstorage_live p2 -> nstorage_live p -> sums_exact rnd w1 -> sums_exact rnd w2 -> sums_exact rnd w ->
  nonnegative w1 -> nonnegative w2 -> nonnegative w ->
  forall e1 e2 e lb1 lb2 lb ub1 ub2 ub heur1 heur2 heur c1 c2 c, npermutes e1 -> npermutes e2 -> npermutes e ->
  all_within n1 adj1 w1 ub1 -> all_within n2 adj2 w2 ub2 -> all_within (n1 + n2) adj w ub ->
  answer (nw_get_max_clique rnd e1 p1 lb1 ub1 heur1 true) = Ok (Ret c1) -> answer (nw_get_max_clique rnd e2 p2 lb2 ub2 heur2 true) = Ok (Ret c2) ->
  answer (nw_get_max_clique rnd e p lb ub heur true) = Ok (Ret c) ->
  2 <= length c1 -> 2 <= length c2 -> 2 <= length c -> weight w c = Z.max (weight w1 c1) (weight w2 c2).
Proof. exact beside_heaviest. Qed.
Print Assumptions C108_weight_partial.

(** NWGraph: behind vertices without edges, all_cliques(T) lists exactly the cliques of two or more vertices that weigh T or more and less without
    the vertex added last (C40), whatever vertex they are built from. *)
Theorem C108_weighted_complete : forall rnd p m n adj2 adj w2 w, beside m (fun _ _ => False) adj2 adj -> (forall v, 1 <= v -> vweight w (m + v) = vweight w2 v) ->
  simple n adj2 -> nmade rnd p (m + n) adj w -> has_edge adj2 -> nstorage_live p -> sums_exact rnd w -> rises rnd -> nonnegative w ->
  forall e T lr, 1 <= m -> exists en q en' l, nw_all_cliques e p T = Ret en
    /\ (forall fuel, length l < fuel -> nw_drain rnd fuel lr p en = Ok (q, en', l))
    /\ forall d, In d l <-> exists c v, d = shift m c /\ heavy_minimal n adj2 w2 T c v.
Proof. exact behind_heavy. Qed.
Print Assumptions C108_weighted_complete.

(** NWGraph: all_cliques(T) lists those of the first graph, then those of the second that are built from its vertex 1, which the list for the second
    graph alone lacks, then the latter. *)
Theorem C108_weighted_list : forall rnd p1 p2 p n1 n2 adj1 adj2 adj w1 w2 w, beside n1 adj1 adj2 adj -> weights_beside n1 w1 w2 w ->
  nmade rnd p1 n1 adj1 w1 -> nmade rnd p2 n2 adj2 w2 -> nmade rnd p (n1 + n2) adj w -> has_edge adj1 -> has_edge adj2 ->
  nstorage_live p1 -> nstorage_live p2 -> nstorage_live p -> sums_exact rnd w1 -> sums_exact rnd w2 -> sums_exact rnd w -> rises rnd ->
  nonnegative w1 -> nonnegative w2 -> nonnegative w ->
  forall e1 e2 e T lr1 lr2 lr, exists a1 a2 a q1 b1 l1 q2 b2 l2 q b l x,
    nw_all_cliques e1 p1 T = Ret a1 /\ nw_all_cliques e2 p2 T = Ret a2 /\ nw_all_cliques e p T = Ret a
    /\ (forall fuel, length l1 < fuel -> nw_drain rnd fuel lr1 p1 a1 = Ok (q1, b1, l1)) /\ (forall fuel, length l2 < fuel -> nw_drain rnd fuel lr2 p2 a2 = Ok (q2, b2, l2))
    /\ (forall fuel, length l < fuel -> nw_drain rnd fuel lr p a = Ok (q, b, l))
    /\ l = l1 ++ map (shift n1) (x ++ l2) /\ forall d, In d x <-> heavy_minimal n2 adj2 w2 T d 1.
Proof. exact beside_heavy. Qed.
Print Assumptions C108_weighted_list.

Example C108_example : beside 8 (adj_rows sample_rows) (adj_rows sample_rows) (adj_rows twin_rows) /\ made sample 8 (adj_rows sample_rows)
  /\ made twin (8 + 8) (adj_rows twin_rows) /\ storage_live sample /\ storage_live twin /\ has_edge (adj_rows sample_rows)
  /\ answer (get_max_clique timed sample 1 DEFAULT_UB true true false) = Ok (Ret [1; 2; 3; 4])
  /\ answer (get_max_clique timed twin 1 DEFAULT_UB true true false) = Ok (Ret [1; 2; 3; 4])
  /\ (exists q en, drain 9 true sample (new_enum 3) = Ok (q, en, [[2; 3; 4]; [5; 6; 7]]))
  /\ exists q en, drain 9 true twin (new_enum 3) = Ok (q, en,
       [[2; 3; 4]; [5; 6; 7]] ++ map (shift 8) ([[1; 2; 3]; [1; 2; 4]; [1; 3; 4]] ++ [[2; 3; 4]; [5; 6; 7]])).
Proof.
  split; [exact (moved_beside 8 sample_rows sample_rows)|]. split; [exact sample_made|]. split; [exact twin_made|]. split; [exact sample_live|].
  split; [exact twin_live|]. split; [exact sample_edge|]. split; [vm_compute; reflexivity|]. split; [vm_compute; reflexivity|].
  split; do 2 eexists; vm_compute; reflexivity.
Qed.

Example C108_complete_example : beside 1 (fun _ _ => False) (adj_rows sample_rows) (adj_rows (moved 1 sample_rows)) /\ simple 8 (adj_rows sample_rows)
  /\ made behind (1 + 8) (adj_rows (moved 1 sample_rows)) /\ storage_live behind
  /\ exists q en, drain 9 false behind (new_enum 3) = Ok (q, en, map (shift 1) [[1; 2; 3]; [1; 2; 4]; [1; 3; 4]; [2; 3; 4]; [5; 6; 7]]).
Proof.
  split; [exact (moved_behind 1 sample_rows)|]. split; [exact (made_simple _ _ _ sample_made)|]. split; [exact behind_made|]. split; [exact behind_live|].
  do 2 eexists. vm_compute. reflexivity.
Qed.

Example C108_weighted_example : beside 6 (adj_rows wrows) (adj_rows wrows) (adj_rows (wrows ++ moved 6 wrows)) /\ weights_beside 6 wwts wwts (wwts ++ wwts)
  /\ nmade half_even wsample 6 (adj_rows wrows) wwts /\ nmade half_even wtwin (6 + 6) (adj_rows (wrows ++ moved 6 wrows)) (wwts ++ wwts)
  /\ has_edge (adj_rows wrows) /\ nstorage_live wsample /\ nstorage_live wtwin /\ sums_exact half_even wwts /\ sums_exact half_even (wwts ++ wwts)
  /\ nonnegative wwts /\ nonnegative (wwts ++ wwts)
  /\ answer (nw_get_max_clique half_even nw_env wsample 0 100 true true) = Ok (Ret [4; 5; 6])
  /\ answer (nw_get_max_clique half_even nw_env wtwin 0 100 true true) = Ok (Ret [4; 5; 6]).
Proof.
  split; [exact (moved_beside 6 wrows wrows)|]. split; [exact wtwin_weights|]. split; [exact wsample_made|]. split; [exact wtwin_made|].
  split; [exact wsample_edge|]. split; [exact wsample_live|]. split; [exact wtwin_live|]. split; [exact wwts_exact|]. split; [exact (proj1 wtwin_sums)|].
  split; [exact wwts_nonneg|]. split; [exact (proj2 wtwin_sums)|]. split; vm_compute; reflexivity.
Qed.

(** {1,2,3,4}, which C58_vertex_1_refuted misses, is listed. *)
Example C108_weighted_complete_example : beside 1 (fun _ _ => False) (adj_rows wrows) (adj_rows (moved 1 wrows))
  /\ (forall v, 1 <= v -> vweight (7%Z :: wwts) (1 + v) = vweight wwts v) /\ simple 6 (adj_rows wrows)
  /\ nmade half_even wbehind (1 + 6) (adj_rows (moved 1 wrows)) (7%Z :: wwts) /\ has_edge (adj_rows wrows) /\ nstorage_live wbehind
  /\ sums_exact half_even (7%Z :: wwts) /\ rises half_even /\ nonnegative (7%Z :: wwts)
  /\ exists en q x, nw_all_cliques nw_env wbehind 8 = Ret en /\ nw_drain half_even 9 true wbehind en = Ok (q, x, map (shift 1) [[1; 2; 3; 4]; [4; 5]; [5; 6]]).
Proof.
  split; [exact (moved_behind 1 wrows)|]. split; [exact wbehind_weights|].
  split; [destruct (nmade_made _ _ _ _ _ wsample_made) as [_ MD]; exact (made_simple _ _ _ MD)|]. split; [exact wbehind_made|]. split; [exact wsample_edge|].
  split; [exact wbehind_live|]. split; [exact (proj1 wbehind_sums)|]. split; [exact half_even_rises|]. split; [exact (proj2 wbehind_sums)|].
  do 3 eexists. split; [vm_compute; reflexivity|]. vm_compute. reflexivity.
Qed.

Example C108_weighted_list_example : beside 6 (adj_rows wrows) (adj_rows wrows) (adj_rows (wrows ++ moved 6 wrows)) /\ weights_beside 6 wwts wwts (wwts ++ wwts)
  /\ nmade half_even wsample 6 (adj_rows wrows) wwts /\ nmade half_even wtwin (6 + 6) (adj_rows (wrows ++ moved 6 wrows)) (wwts ++ wwts)
  /\ has_edge (adj_rows wrows) /\ nstorage_live wsample /\ nstorage_live wtwin /\ sums_exact half_even wwts /\ sums_exact half_even (wwts ++ wwts)
  /\ rises half_even /\ nonnegative wwts /\ nonnegative (wwts ++ wwts)
  /\ (exists en q x, nw_all_cliques nw_env wsample 8 = Ret en /\ nw_drain half_even 9 true wsample en = Ok (q, x, [[4; 5]; [5; 6]]))
  /\ exists en q x, nw_all_cliques nw_env wtwin 8 = Ret en
    /\ nw_drain half_even 9 true wtwin en = Ok (q, x, [[4; 5]; [5; 6]] ++ map (shift 6) ([[1; 2; 3; 4]] ++ [[4; 5]; [5; 6]])).
Proof.
  split; [exact (moved_beside 6 wrows wrows)|]. split; [exact wtwin_weights|]. split; [exact wsample_made|]. split; [exact wtwin_made|].
  split; [exact wsample_edge|]. split; [exact wsample_live|]. split; [exact wtwin_live|]. split; [exact wwts_exact|]. split; [exact (proj1 wtwin_sums)|].
  split; [exact half_even_rises|]. split; [exact wwts_nonneg|]. split; [exact (proj2 wtwin_sums)|].
  split; do 3 eexists; (split; [vm_compute; reflexivity|]); vm_compute; reflexivity.
Qed.
