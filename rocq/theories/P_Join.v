(** P_Join: two graphs with all edges between them (C109). *)
From Verif Require Import Base MUtils MGraph MEnum MApi MNW MNWEnum MNWApi MExt Spec SpecDec SpecNW SpecBeside SpecJoin SpecRound NWRoundFacts NWProps LoadFacts SearchProps Samples ExtSamples FirstSamples NWSamples BesideSamples JoinFacts JoinSamples.
Local Open Scope nat_scope.

(** The largest clique of two graphs with all edges between them has as many vertices as their largest cliques together. *)
Theorem C109_size : forall p1 p2 p n1 n2 adj1 adj2 adj, joined n1 n2 adj1 adj2 adj -> made p1 n1 adj1 -> made p2 n2 adj2 -> made p (n1 + n2) adj ->
  storage_live p1 -> storage_live p2 -> storage_live p ->
  forall e1 e2 e lb1 lb2 lb ub1 ub2 ub heur1 heur2 heur cont1 cont2 cont q1 q2 q c1 c2 c, has_edge adj1 -> has_edge adj2 ->
  permutes e1 -> permutes e2 -> permutes e -> never_late e1 -> never_late e2 -> never_late e ->
  (forall d, clique n1 adj1 d -> length d <= ub1) -> (forall d, clique n2 adj2 d -> length d <= ub2) -> (forall d, clique (n1 + n2) adj d -> length d <= ub) ->
  get_max_clique e1 p1 lb1 ub1 heur1 true cont1 = Ok (q1, Ret c1) -> get_max_clique e2 p2 lb2 ub2 heur2 true cont2 = Ok (q2, Ret c2) ->
  get_max_clique e p lb ub heur true cont = Ok (q, Ret c) -> length c = length c1 + length c2.
Proof. exact joined_size. Qed.
Print Assumptions C109_size.

(** NWGraph: if every vertex of the two graphs has a neighbour there, the heaviest clique weighs as much as theirs together. *)
(** Missing: negative weights, rounded sums, answers of one vertex. *)
Theorem C109_weight_partial : forall rnd p1 p2 p n1 n2 adj1 adj2 adj w1 w2 w, joined n1 n2 adj1 adj2 adj -> weights_beside n1 w1 w2 w ->
  nmade rnd p1 n1 adj1 w1 -> nmade rnd p2 n2 adj2 w2 -> nmade rnd p (n1 + n2) adj w -> has_edge adj1 -> has_edge adj2 ->
  nstorage_live p1 -> nstorage_live p2 -> nstorage_live p -> sums_exact rnd w1 -> sums_exact rnd w2 -> sums_exact rnd w ->
  nonnegative w1 -> nonnegative w2 -> nonnegative w -> no_lone n1 adj1 -> no_lone n2 adj2 ->
  forall e1 e2 e lb1 lb2 lb ub1 ub2 ub heur1 heur2 heur c1 c2 c, npermutes e1 -> npermutes e2 -> npermutes e ->
  all_within n1 adj1 w1 ub1 -> all_within n2 adj2 w2 ub2 -> all_within (n1 + n2) adj w ub ->
  answer (nw_get_max_clique rnd e1 p1 lb1 ub1 heur1 true) = Ok (Ret c1) -> answer (nw_get_max_clique rnd e2 p2 lb2 ub2 heur2 true) = Ok (Ret c2) ->
  answer (nw_get_max_clique rnd e p lb ub heur true) = Ok (Ret c) ->
  2 <= length c1 -> 2 <= length c2 -> 2 <= length c -> weight w c = (weight w1 c1 + weight w2 c2)%Z.
Proof. exact joined_heaviest. Qed.
Print Assumptions C109_weight_partial.

Example C109_example : joined 8 8 (adj_rows sample_rows) (adj_rows sample_rows) (adj_rows join_rows) /\ made sample 8 (adj_rows sample_rows)
  /\ made join (8 + 8) (adj_rows join_rows) /\ storage_live sample /\ storage_live join /\ has_edge (adj_rows sample_rows)
  /\ answer (get_max_clique timed sample 1 DEFAULT_UB true true false) = Ok (Ret [1; 2; 3; 4])
  /\ answer (get_max_clique timed join 1 DEFAULT_UB true true false) = Ok (Ret ([1; 2; 3; 4] ++ shift 8 [1; 2; 3; 4])).
Proof.
  split; [exact (across_joined 8 8 sample_rows sample_rows)|]. split; [exact sample_made|]. split; [exact join_made|]. split; [exact sample_live|].
  split; [exact join_live|]. split; [exact sample_edge|]. split; vm_compute; reflexivity.
Qed.

Example C109_weighted_example : joined 6 6 (adj_rows wrows) (adj_rows wrows) (adj_rows wjoin_rows) /\ weights_beside 6 wwts wwts (wwts ++ wwts)
  /\ nmade half_even wsample 6 (adj_rows wrows) wwts /\ nmade half_even wjoin (6 + 6) (adj_rows wjoin_rows) (wwts ++ wwts)
  /\ has_edge (adj_rows wrows) /\ nstorage_live wsample /\ nstorage_live wjoin /\ sums_exact half_even wwts /\ sums_exact half_even (wwts ++ wwts)
  /\ nonnegative wwts /\ nonnegative (wwts ++ wwts) /\ no_lone 6 (adj_rows wrows)
  /\ answer (nw_get_max_clique half_even nw_env wsample 0 100 true true) = Ok (Ret [4; 5; 6])
  /\ answer (nw_get_max_clique half_even nw_env wjoin 0 100 true true) = Ok (Ret ([4; 5; 6] ++ shift 6 [4; 5; 6])).
Proof.
  split; [exact (across_joined 6 6 wrows wrows)|]. split; [exact wtwin_weights|]. split; [exact wsample_made|]. split; [exact wjoin_made|].
  split; [exact wsample_edge|]. split; [exact wsample_live|]. split; [exact wjoin_live|]. split; [exact wwts_exact|]. split; [exact (proj1 wtwin_sums)|].
  split; [exact wwts_nonneg|]. split; [exact (proj2 wtwin_sums)|]. split; [exact wsample_no_lone|]. split; vm_compute; reflexivity.
Qed.
