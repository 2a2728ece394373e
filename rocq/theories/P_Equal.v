(** P_Equal: a NWGraph with equal weights against the Graph with the same edges (C76). *)
From Verif Require Import Base MUtils MGraph MEnum MApi MNW MNWEnum MNWApi Spec SpecDec SpecNW SpecCont SpecOrder SpecRound NWRoundFacts NWProps EqualProps Samples NWSamples EqualSamples.
Local Open Scope nat_scope.

(** all_cliques(k) of the one is all_cliques(T) of the other. Missing: sizes below 2, for which it is false. *)
Theorem C76_enumerate_partial : forall rnd p p' n adj u, made p n adj -> storage_live p -> nmade rnd p' n adj (repeat u n) -> nstorage_live p' ->
  has_edge adj -> (0 < u)%Z -> sums_exact rnd (repeat u n) -> rises rnd ->
  forall q q' k T lr lr' e, unhurried n adj p q -> nunhurried rnd n adj (repeat u n) p' q' -> 2 <= k -> (u * (Z.of_nat k - 1) < T <= u * Z.of_nat k)%Z ->
  exists q1 en1 en' q1' en1' l, (forall fuel, length l < fuel -> drain fuel lr q (new_enum k) = Ok (q1, en1, l))
    /\ nw_all_cliques e q' T = Ret en' /\ (forall fuel, length l < fuel -> nw_drain rnd fuel lr' q' en' = Ok (q1', en1', l)).
Proof. exact equal_enumerates. Qed.
Print Assumptions C76_enumerate_partial.

(** Both searches answer with maximum cliques. *)
Theorem C76_search : forall rnd p p' n adj u, made p n adj -> storage_live p -> nmade rnd p' n adj (repeat u n) -> nstorage_live p' ->
  has_edge adj -> (0 < u)%Z -> sums_exact rnd (repeat u n) ->
  forall e e' ub ub' lb' heur heur' cont, permutes e -> untimed e -> npermutes e' -> (forall d, clique n adj d -> length d <= ub) ->
  (lb' < 2 * u)%Z -> all_within n adj (repeat u n) ub' ->
  exists q c q' c', get_max_clique e p 1 ub heur true cont = Ok (q, Ret c) /\ nw_get_max_clique rnd e' p' lb' ub' heur' true = Ok (q', Ret c')
    /\ maximum_clique n adj c /\ maximum_clique n adj c' /\ length c = length c'.
Proof. exact equal_searches. Qed.
Print Assumptions C76_search.

(** Size 1 and weight 1: the Graph lists vertices, the NWGraph edges. *)
Theorem C76_size_1_refuted : exists p p' n adj u q1 en1 e en' q1' en1' l l',
  made p n adj /\ storage_live p /\ nmade half_even p' n adj (repeat u n) /\ nstorage_live p' /\ has_edge adj /\ (0 < u)%Z /\ sums_exact half_even (repeat u n)
  /\ drain 40 true p (new_enum 1) = Ok (q1, en1, l) /\ (forall c, In c l -> length c = 1) /\ length l = n
  /\ nw_all_cliques e p' u = Ret en' /\ nw_drain half_even 40 true p' en' = Ok (q1', en1', l') /\ (forall c, In c l' -> length c = 2) /\ length l' = 7.
Proof.
  destruct sample_ones as (q & en & l & D & L & N). destruct threes_ones as (en' & q' & en1' & l' & A & D' & L' & N').
  exists sample, threes, 8, (adj_rows sample_rows), 3%Z, q, en, nw_env, en', q', en1', l, l'. split; [exact sample_made|]. split; [exact sample_live|].
  split; [exact threes_made|]. split; [exact threes_live|]. split; [exact sample_edge|]. split; [reflexivity|]. split; [exact threes_exact|].
  repeat (split; [assumption|]). exact N'.
Qed.
Print Assumptions C76_size_1_refuted.

Example C76_example : made sample 8 (adj_rows sample_rows) /\ storage_live sample /\ nmade half_even threes 8 (adj_rows sample_rows) (repeat 3%Z 8) /\ nstorage_live threes
  /\ has_edge (adj_rows sample_rows) /\ (0 < 3)%Z /\ sums_exact half_even (repeat 3%Z 8) /\ rises half_even
  /\ (exists q, unhurried 8 (adj_rows sample_rows) sample q /\ q <> sample) /\ nunhurried half_even 8 (adj_rows sample_rows) (repeat 3%Z 8) threes threes
  /\ (3 * (Z.of_nat 3 - 1) < 9 <= 3 * Z.of_nat 3)%Z /\ permutes (run_env None) /\ untimed (run_env None) /\ npermutes nw_env
  /\ (forall d, clique 8 (adj_rows sample_rows) d -> length d <= 8) /\ (5 < 2 * 3)%Z /\ all_within 8 (adj_rows sample_rows) (repeat 3%Z 8) 100
  /\ (exists q en, drain 20 true sample (new_enum 3) = Ok (q, en, [[2; 3; 4]; [5; 6; 7]]))
  /\ (exists en q en', nw_all_cliques nw_env threes 9 = Ret en /\ nw_drain half_even 20 true threes en = Ok (q, en', [[2; 3; 4]; [5; 6; 7]])).
Proof.
  split; [exact sample_made|]. split; [exact sample_live|]. split; [exact threes_made|]. split; [exact threes_live|]. split; [exact sample_edge|].
  split; [reflexivity|]. split; [exact threes_exact|]. split; [exact half_even_rises|].
  split; [destruct sample_unhurried as (q & U & N & _); exists q; split; assumption|]. split; [apply nu_start|]. split; [split; reflexivity|].
  split; [apply (proj1 (run_env_sorts None))|]. split; [reflexivity|]. split; [exact nw_env_permutes|].
  split; [intros d D; exact (clique_length _ _ _ D)|]. split; [reflexivity|]. split; [exact threes_within|]. split; [exact sample_triangles|exact threes_triangles].
Qed.
