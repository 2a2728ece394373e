(** P_NWFirst: which of several heaviest cliques NWGraph returns (C106). *)
From Verif Require Import Base MUtils MGraph MApi MNW MNWEnum MNWApi Spec SpecDec SpecNW SpecNWFirst SpecRound NWRoundFacts NWProps Samples ExtSamples FirstSamples NWSamples NWFirst NWFirstSamples.
Local Open Scope nat_scope.

(** A get_max_clique on a fresh object, without the heuristic, returns the first of the heaviest cliques in the order of the search: first those built from
    the vertex whose later neighbours weigh most, then those built from vertex 1, 2, ..., and those built from the same vertex in lexicographic order.
    No vertex that comes after the starting vertex can be added to it, not even one of weight 0. *)
Theorem C106_first : forall rnd p n adj w e lb ub q c, nmade rnd p n adj w -> has_edge adj -> nstorage_live p -> sums_exact rnd w -> nonnegative w ->
  npermutes e -> all_within n adj w ub -> nw_get_max_clique rnd e p lb ub false true = Ok (q, Ret c) -> 2 <= length c ->
  clique n adj c /\ all_within n adj w (weight w c) /\ saturated adj w c
  /\ exists s, weightiest n adj w s /\ forall d, clique n adj d -> 2 <= length d -> weight w d = weight w c -> d <> c -> found_before adj w s c d.
Proof. exact nw_first. Qed.
Print Assumptions C106_first.

(** So the answer is a function of the edges and the weights: the order of the rows, the kind of input, the bounds, the order of evaluation, the sort and the
    rounding do not matter. *)
Theorem C106_same_answer : forall rnd rnd' p p' n adj adj' w e e' lb lb' ub ub' q q' c c', nmade rnd p n adj w -> nmade rnd' p' n adj' w ->
  (forall u v, adj u v <-> adj' u v) -> has_edge adj -> nstorage_live p -> nstorage_live p' -> sums_exact rnd w -> sums_exact rnd' w -> nonnegative w ->
  npermutes e -> npermutes e' -> all_within n adj w ub -> all_within n adj w ub' ->
  nw_get_max_clique rnd e p lb ub false true = Ok (q, Ret c) -> nw_get_max_clique rnd' e' p' lb' ub' false true = Ok (q', Ret c') ->
  2 <= length c -> 2 <= length c' -> c = c'.
Proof. exact nw_first_same. Qed.
Print Assumptions C106_same_answer.

(** With the heuristic another of the heaviest cliques can be returned. *)
Theorem C106_heuristic_refuted : exists rnd p n adj w e ub q q' c c', nmade rnd p n adj w /\ has_edge adj /\ nstorage_live p /\ sums_exact rnd w /\ nonnegative w
  /\ npermutes e /\ all_within n adj w ub
  /\ nw_get_max_clique rnd e p 0 ub false true = Ok (q, Ret c) /\ nw_get_max_clique rnd e p 0 ub true true = Ok (q', Ret c') /\ c <> c'.
Proof.
  exists half_even, wtwo, 13, (adj_rows two_rows), ones, nw_env, 700%Z. do 4 eexists.
  split; [exact wtwo_made|]. split; [exact two_edge|]. split; [exact wtwo_live|]. split; [exact (proj1 ones_sums)|]. split; [exact (proj2 ones_sums)|].
  split; [exact nw_env_permutes|]. split; [exact ones_700|]. split; [vm_compute; reflexivity|]. split; [vm_compute; reflexivity|]. discriminate.
Qed.
Print Assumptions C106_heuristic_refuted.

(** The triangles 1,2,3 and 4,5,6 weigh the same; the search begins with vertex 4. *)
Example C106_example : nmade half_even wtwo 13 (adj_rows two_rows) ones /\ nmade half_even wtwo' 13 (adj_rows (rev two_rows)) ones
  /\ (forall u v, adj_rows two_rows u v <-> adj_rows (rev two_rows) u v) /\ has_edge (adj_rows two_rows) /\ nstorage_live wtwo /\ nstorage_live wtwo'
  /\ sums_exact half_even ones /\ nonnegative ones /\ npermutes nw_env /\ all_within 13 (adj_rows two_rows) ones 700
  /\ answer (nw_get_max_clique half_even nw_env wtwo 0 700 false true) = Ok (Ret [4; 5; 6])
  /\ answer (nw_get_max_clique half_even nw_env wtwo' 1 700 false true) = Ok (Ret [4; 5; 6])
  /\ clique 13 (adj_rows two_rows) [1; 2; 3] /\ weight ones [1; 2; 3] = weight ones [4; 5; 6] /\ weightiest 13 (adj_rows two_rows) ones 4.
Proof.
  split; [exact wtwo_made|]. split; [exact wtwo'_made|]. split; [exact wtwo'_same|]. split; [exact two_edge|]. split; [exact wtwo_live|]. split; [exact wtwo'_live|].
  split; [exact (proj1 ones_sums)|]. split; [exact (proj2 ones_sums)|]. split; [exact nw_env_permutes|]. split; [exact ones_700|].
  split; [vm_compute; reflexivity|]. split; [vm_compute; reflexivity|]. split; [apply cliqueb_sound; vm_compute; reflexivity|].
  split; [vm_compute; reflexivity|]. exact two_weightiest.
Qed.
