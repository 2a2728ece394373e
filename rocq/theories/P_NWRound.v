(** P_NWRound: node-weighted graphs in floating-point arithmetic (C72). *)
From Verif Require Import Base MUtils MGraph MApi MNW MNWEnum MNWApi Spec SpecDec SpecNW SpecRound RoundFacts NWRoundFacts NWProps NWSamples NWRoundProps NWRoundSamples.
From Coq Require Import Sorting.Sorted Sorting.Permutation.
Local Open Scope nat_scope.

(** * C72: rounding to nearest leaves the sums of weights on a common grid alone, ... *)
Theorem C72_exact_on_grid : forall rnd w, nearest rnd -> on_grid w -> rises rnd /\ sums_exact rnd w.
Proof. exact grid_rises_exact. Qed.
Print Assumptions C72_exact_on_grid.

(** Full claim: the search finds a heaviest clique, whatever the weights. What holds: it does if the weights are on a common grid. *)
Theorem C72_heaviest_partial : forall rnd p n adj w, nearest rnd -> on_grid w -> nmade rnd p n adj w -> has_edge adj -> nstorage_live p -> nonnegative w ->
  forall q e lb ub heur, nrested rnd n adj w p q -> npermutes e -> all_within n adj w ub ->
  ends_with (nw_get_max_clique rnd e q lb ub heur true) (fun '(q', r) => match r with
     | Ret c => all_within n adj w (weight w c)
     | Raise x => x = EBounds /\ all_within n adj w lb
     end).
Proof. exact round_heaviest. Qed.
Print Assumptions C72_heaviest_partial.

(** Likewise for all_cliques(T) *)
Theorem C72_complete_partial : forall rnd p n adj w, nearest rnd -> on_grid w -> nmade rnd p n adj w -> has_edge adj -> nstorage_live p -> nonnegative w ->
  forall q e T lr, nunhurried rnd n adj w p q -> exists en q' en' l, nw_all_cliques e q T = Ret en
    /\ (forall fuel, length l < fuel -> nw_drain rnd fuel lr q en = Ok (q', en', l))
    /\ forall d v, heavy_minimal n adj w T d v -> v <> 1 -> In d l.
Proof. exact round_complete. Qed.
Print Assumptions C72_complete_partial.

(** 0.3 + 0.2 + 0.1 is more than 0.3 + 0.3, but only before rounding. *)
Theorem C72_heaviest_refuted : exists rnd p n adj w e c d, nearest rnd /\ (forall x, In x w -> double x) /\ nmade rnd p n adj w /\ has_edge adj /\ nstorage_live p
  /\ nonnegative w /\ nsorts e /\ answer (nw_get_max_clique rnd e p 0 (2 ^ 60) true true) = Ok (Ret c)
  /\ clique n adj d /\ (weight w c < weight w d <= 2 ^ 60)%Z.
Proof.
  exists half_even, tenth, 5, (adj_rows tenth_rows), tenths, nw_env, [1; 2], [3; 4; 5].
  split; [apply half_even_nearest|]. split; [exact tenths_double|]. split; [exact tenth_made|]. split; [exact tenth_edge|].
  split; [exact tenth_live|]. split; [exact tenths_nonneg|]. split; [exact nw_env_sorts|]. split; [vm_compute; reflexivity|].
  split; [apply cliqueb_sound; vm_compute; reflexivity|]. split; vm_compute; [reflexivity|discriminate].
Qed.
Print Assumptions C72_heaviest_refuted.

(** Not even get_clique_weight agrees that the answer is heaviest. The search adds the weight of a vertex to a running total when it
    descends and subtracts it when it returns; each time a unit may be lost, so that what it stores for a clique is off by more than
    the few roundings of one sum. *)
Theorem C72_drift_refuted : exists rnd p n adj w e c d x y, nearest rnd /\ (forall x, In x w -> double x) /\ nmade rnd p n adj w /\ has_edge adj /\ nstorage_live p
  /\ nonnegative w /\ nsorts e /\ answer (nw_get_max_clique rnd e p 0 (2 ^ 60) false true) = Ok (Ret c) /\ clique n adj d
  /\ nw_get_clique_weight rnd p c = Ok (Ret x) /\ nw_get_clique_weight rnd p d = Ok (Ret y) /\ (x < y <= 2 ^ 60)%Z.
Proof.
  exists half_even, drift, 38, (adj_rows drift_rows), drifts, nw_env, [36; 37; 38], [1; 16; 17]. do 2 eexists.
  split; [apply half_even_nearest|]. split; [exact drifts_double|]. split; [exact drift_made|]. split; [exact drift_edge|].
  split; [exact drift_live|]. split; [exact drifts_nonneg|]. split; [exact nw_env_sorts|]. split; [vm_compute; reflexivity|].
  split; [apply cliqueb_sound; vm_compute; reflexivity|]. split; [vm_compute; reflexivity|]. split; [vm_compute; reflexivity|].
  split; vm_compute; [reflexivity|discriminate].
Qed.
Print Assumptions C72_drift_refuted.

(** all_cliques(T) lists a clique that weighs less than T, ... *)
Theorem C72_threshold_refuted : exists rnd p n adj w e T en q en' l d, nearest rnd /\ (forall x, In x w -> double x) /\ double T
  /\ nmade rnd p n adj w /\ has_edge adj /\ nstorage_live p /\ nonnegative w
  /\ nw_all_cliques e p T = Ret en /\ nw_drain rnd 7 true p en = Ok (q, en', l) /\ In d l /\ (weight w d < T)%Z.
Proof.
  exists half_even, big, 5, (adj_rows big_rows), bigs, nw_env, (2 ^ 53 + 4)%Z. do 3 eexists. exists [[4; 5]], [4; 5].
  split; [apply half_even_nearest|]. split; [exact bigs_double|]. split; [exists (2 ^ 51 + 1)%Z, 2%Z; vm_compute; repeat split; congruence|].
  split; [exact big_made|]. split; [exact big_edge|]. split; [exact big_live|]. split; [exact bigs_nonneg|].
  split; [reflexivity|]. split; [vm_compute; reflexivity|]. split; [left; reflexivity|]. vm_compute. reflexivity.
Qed.
Print Assumptions C72_threshold_refuted.

(** ... and leaves out one that does not. *)
Theorem C72_complete_refuted : exists rnd p n adj w e T en q en' l d v, nearest rnd /\ (forall x, In x w -> double x) /\ double T
  /\ nmade rnd p n adj w /\ has_edge adj /\ nstorage_live p /\ nonnegative w
  /\ nw_all_cliques e p T = Ret en /\ nw_drain rnd 7 true p en = Ok (q, en', l) /\ heavy_minimal n adj w T d v /\ v <> 1 /\ ~ In d l.
Proof.
  exists half_even, drop, 5, (adj_rows tenth_rows), drops, nw_env, (2 ^ 53 + 2)%Z. do 3 eexists. exists [], [3; 4; 5], 3.
  split; [apply half_even_nearest|]. split; [exact drops_double|]. split; [exists (2 ^ 52 + 1)%Z, 1%Z; vm_compute; repeat split; congruence|].
  split; [exact drop_made|]. split; [exact tenth_edge|]. split; [exact drop_live|]. split; [exact drops_nonneg|].
  split; [reflexivity|]. split; [vm_compute; reflexivity|]. split; [exact drop_heavy|]. split; [discriminate|]. exact (@in_nil _ _).
Qed.
Print Assumptions C72_complete_refuted.

(** The weight reported for a clique depends on the order of its vertices. *)
Theorem C72_order_refuted : exists rnd p n adj w c d x y, nearest rnd /\ (forall x, In x w -> double x) /\ nmade rnd p n adj w
  /\ clique n adj c /\ Permutation c d /\ nw_get_clique_weight rnd p c = Ok (Ret x) /\ nw_get_clique_weight rnd p d = Ok (Ret y) /\ x <> y.
Proof.
  exists half_even, tenth, 5, (adj_rows tenth_rows), tenths, [3; 4; 5], [5; 4; 3]. do 2 eexists.
  split; [apply half_even_nearest|]. split; [exact tenths_double|]. split; [exact tenth_made|].
  split; [apply cliqueb_sound; vm_compute; reflexivity|]. split; [exact (Permutation_rev [3; 4; 5])|].
  split; [vm_compute; reflexivity|]. split; [vm_compute; reflexivity|discriminate].
Qed.
Print Assumptions C72_order_refuted.

(** It is off by at most a factor (1 +- 2^-53)^k for k vertices. *)
Theorem C72_weight_error : forall rnd p n adj w c, nearest rnd -> nonnegative w -> nmade rnd p n adj w -> 1 <= n ->
  exists x, nw_get_clique_weight rnd p c = Ok (Ret x)
    /\ ((2 ^ 53 - 1) ^ Z.of_nat (length c) * weight w c <= (2 ^ 53) ^ Z.of_nat (length c) * x <= (2 ^ 53 + 1) ^ Z.of_nat (length c) * weight w c)%Z.
Proof. exact clique_weight_error. Qed.
Print Assumptions C72_weight_error.

Example C72_example : nearest half_even /\ on_grid wholes /\ nmade half_even whole 6 (adj_rows wrows) wholes /\ has_edge (adj_rows wrows) /\ nstorage_live whole
  /\ nonnegative wholes /\ nrested half_even 6 (adj_rows wrows) wholes whole whole /\ nunhurried half_even 6 (adj_rows wrows) wholes whole whole /\ npermutes nw_env
  /\ answer (nw_get_max_clique half_even nw_env whole 0 (2 ^ 70) true true) = Ok (Ret [4; 5; 6]) /\ weight wholes [4; 5; 6] = (12 * 2 ^ 60)%Z.
Proof.
  split; [apply half_even_nearest|]. split; [exact wholes_grid|]. split; [exact whole_made|]. split; [exact wsample_edge|]. split; [exact whole_live|].
  split; [exact wholes_nonneg|]. split; [left; reflexivity|]. split; [apply nu_start|]. split; [exact nw_env_permutes|]. split; vm_compute; reflexivity.
Qed.
