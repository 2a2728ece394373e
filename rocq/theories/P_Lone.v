(** P_Lone: vertices without neighbours (C104). *)
From Verif Require Import Base MUtils MGraph MEnum MApi MNW MNWEnum MNWApi MExt Spec SpecDec SpecNW SpecCont SpecLone SpecRound NWRoundFacts NWProps SearchProps EnumCalls Samples ExtSamples FirstSamples NWSamples LoneFacts LoneSamples SpecNWFirst NWFirstLone NWFirstSamples HeurCount.
Local Open Scope nat_scope.

(** The same edges and more vertices: without the heuristic, get_max_clique returns the same clique, with a time limit that does not run out or
    without one. *)
Theorem C104_search_partial : forall p p' n n' adj adj', padded n n' adj adj' -> made p n adj -> made p' n' adj' -> storage_live p -> storage_live p' ->
  forall e e' lb lb' ub ub' cont cont' q q' c c', has_edge adj -> permutes e -> permutes e' ->
  (untimed e /\ untimed e' \/ ~ untimed e /\ ~ untimed e' /\ never_late e /\ never_late e') ->
  (forall d, clique n adj d -> length d <= ub) -> (forall d, clique n' adj' d -> length d <= ub') ->
  get_max_clique e p lb ub false true cont = Ok (q, Ret c) -> get_max_clique e' p' lb' ub' false true cont' = Ok (q', Ret c') -> c = c'.
Proof. exact lone_search. Qed.
Print Assumptions C104_search_partial.

(** With the heuristic, followed by the depth-first search, a clique of the same size. *)
(** Missing: that it is the same clique. *)
Theorem C104_size_partial : forall p p' n n' adj adj', padded n n' adj adj' -> made p n adj -> made p' n' adj' -> storage_live p -> storage_live p' ->
  forall e e' lb lb' ub ub' heur heur' cont cont' q q' c c', has_edge adj -> permutes e -> permutes e' -> never_late e -> never_late e' ->
  (forall d, clique n adj d -> length d <= ub) -> (forall d, clique n' adj' d -> length d <= ub') ->
  get_max_clique e p lb ub heur true cont = Ok (q, Ret c) -> get_max_clique e' p' lb' ub' heur' true cont' = Ok (q', Ret c') -> length c = length c'.
Proof. exact lone_size. Qed.
Print Assumptions C104_size_partial.

(** The heuristic alone, if std::sort does the same in both, gives a clique of the same size, or both calls raise. Missing: that it is the same clique. *)
Theorem C104_heuristic_partial : forall p p' n n' adj adj', padded n n' adj adj' -> made p n adj -> made p' n' adj' -> storage_live p -> storage_live p' ->
  forall e e' lb ub cont cont', has_edge adj -> permutes e -> srt_fun e = srt_fun e' ->
  ends_with (get_max_clique e p lb ub true false cont) (fun r => ends_with (get_max_clique e' p' lb ub true false cont') (fun r' =>
    match snd r, snd r' with
    | Ret c, Ret c' => length c = length c'
    | Raise x, Raise x' => x = x'
    | _, _ => False
    end)).
Proof. exact lone_heuristic. Qed.
Print Assumptions C104_heuristic_partial.

Example C104_heuristic_example : padded 8 12 (adj_rows sample_rows) (adj_rows sample_rows) /\ made sample 8 (adj_rows sample_rows) /\ made lonely 12 (adj_rows sample_rows)
  /\ storage_live sample /\ storage_live lonely /\ has_edge (adj_rows sample_rows) /\ permutes (run_env None)
  /\ answer (get_max_clique (run_env None) sample 2 DEFAULT_UB true false false) = Ok (Ret [1; 2; 3; 4])
  /\ answer (get_max_clique (run_env None) lonely 2 DEFAULT_UB true false true) = Ok (Ret [1; 2; 3; 4])
  /\ answer (get_max_clique (run_env None) sample 4 DEFAULT_UB true false false) = Ok (Raise EBounds)
  /\ answer (get_max_clique (run_env None) lonely 4 DEFAULT_UB true false true) = Ok (Raise EBounds).
Proof.
  split; [exact lonely_padded|]. split; [exact sample_made|]. split; [exact lonely_made|]. split; [exact sample_live|]. split; [exact lonely_live|].
  split; [exact sample_edge|]. split; [apply run_env_sorts|]. split; [vm_compute; reflexivity|]. split; [vm_compute; reflexivity|].
  split; [vm_compute; reflexivity|]. vm_compute. reflexivity.
Qed.

(** The heuristic of NWGraph alone: with a heavy vertex without neighbours it returns [1; 2] of weight 4 instead of [3; 4; 5] of weight 30. *)
Theorem C104_weighted_heuristic_refuted : exists rnd p p' n n' adj adj' w w' e c c', padded n n' adj adj' /\ same_weights n w w'
  /\ nmade rnd p n adj w /\ nmade rnd p' n' adj' w' /\ nstorage_live p /\ nstorage_live p' /\ sums_exact rnd w /\ sums_exact rnd w'
  /\ nonnegative w /\ nonnegative w' /\ npermutes e
  /\ answer (nw_get_max_clique rnd e p 0 100 true false) = Ok (Ret c) /\ answer (nw_get_max_clique rnd e p' 0 100 true false) = Ok (Ret c')
  /\ (7 * weight w' c' < weight w c)%Z.
Proof.
  exists half_even, whard, whard', 5, 6, (adj_rows hrows), (adj_rows hrows), hwts, (hwts ++ [50%Z]), nw_env. do 2 eexists.
  split; [exact (proj1 whard_padded)|]. split; [exact (proj2 whard_padded)|]. split; [exact whard_made|]. split; [exact whard'_made|].
  split; [exact (proj1 whard_live)|]. split; [exact (proj2 whard_live)|]. destruct whard_sums as (S1 & S2 & S3 & S4).
  split; [exact S1|]. split; [exact S2|]. split; [exact S3|]. split; [exact S4|]. split; [exact nw_env_permutes|].
  split; [vm_compute; reflexivity|]. split; [vm_compute; reflexivity|]. vm_compute. reflexivity.
Qed.
Print Assumptions C104_weighted_heuristic_refuted.

(** all_cliques(k) lists the same cliques in the same order, for k of 2 and more. *)
Theorem C104_list : forall p p' n n' adj adj', padded n n' adj adj' -> made p n adj -> made p' n' adj' -> storage_live p -> storage_live p' ->
  forall lr lr' k, 1 <= n -> 2 <= k -> exists en0 en0' q en q' en' l, all_cliques p k = Ret en0 /\ all_cliques p' k = Ret en0'
    /\ (forall fuel, length l < fuel -> drain fuel lr p en0 = Ok (q, en, l)) /\ (forall fuel, length l < fuel -> drain fuel lr' p' en0' = Ok (q', en', l)).
Proof. exact lone_list. Qed.
Print Assumptions C104_list.

(** NWGraph: the answers weigh the same; new vertices may have any weights that are not negative. *)
Theorem C104_weight_partial : forall rnd p p' n n' adj adj' w w', padded n n' adj adj' -> same_weights n w w' -> nmade rnd p n adj w -> nmade rnd p' n' adj' w' ->
  has_edge adj -> nstorage_live p -> nstorage_live p' -> sums_exact rnd w -> sums_exact rnd w' -> nonnegative w -> nonnegative w' ->
  forall e e' lb lb' ub ub' heur heur' c c', npermutes e -> npermutes e' -> all_within n adj w ub -> all_within n' adj' w' ub' ->
  answer (nw_get_max_clique rnd e p lb ub heur true) = Ok (Ret c) -> answer (nw_get_max_clique rnd e' p' lb' ub' heur' true) = Ok (Ret c') ->
  2 <= length c -> 2 <= length c' -> weight w c = weight w' c'.
Proof. exact lone_heaviest. Qed.
Print Assumptions C104_weight_partial.

(** Without the heuristic NWGraph returns the same clique, if every new vertex weighs at most as much as some old one with its later neighbours. *)
(** Missing: heavier new vertices (C104_weighted_search_refuted). *)
Theorem C104_weighted_search_partial : forall rnd p p' n n' adj adj' w w', padded n n' adj adj' -> same_weights n w w' -> nmade rnd p n adj w ->
  nmade rnd p' n' adj' w' -> has_edge adj -> nstorage_live p -> nstorage_live p' -> sums_exact rnd w -> sums_exact rnd w' -> nonnegative w -> nonnegative w' ->
  (forall v, n < v <= n' -> exists u x, 1 <= u <= n /\ later_weight adj w u x /\ (vweight w' v <= x)%Z) ->
  forall e e' lb lb' ub ub' q q' c c', npermutes e -> npermutes e' -> all_within n adj w ub -> all_within n' adj' w' ub' ->
  nw_get_max_clique rnd e p lb ub false true = Ok (q, Ret c) -> nw_get_max_clique rnd e' p' lb' ub' false true = Ok (q', Ret c') ->
  2 <= length c -> 2 <= length c' -> c = c'.
Proof. exact lone_nw_search. Qed.
Print Assumptions C104_weighted_search_partial.

(** One heavy vertex without neighbours is enough to change the answer: the search begins with it. *)
Theorem C104_weighted_search_refuted : exists rnd p p' n n' adj adj' w w' e ub q q' c c', padded n n' adj adj' /\ same_weights n w w'
  /\ nmade rnd p n adj w /\ nmade rnd p' n' adj' w' /\ has_edge adj /\ nstorage_live p /\ nstorage_live p' /\ sums_exact rnd w /\ sums_exact rnd w'
  /\ nonnegative w /\ nonnegative w' /\ npermutes e /\ all_within n adj w ub /\ all_within n' adj' w' ub
  /\ nw_get_max_clique rnd e p 0 ub false true = Ok (q, Ret c) /\ nw_get_max_clique rnd e p' 0 ub false true = Ok (q', Ret c')
  /\ 2 <= length c /\ 2 <= length c' /\ c <> c'.
Proof.
  exists half_even, wtwo, wheavy, 13, 14, (adj_rows two_rows), (adj_rows two_rows), ones, (ones ++ [50%Z]), nw_env, 700%Z. do 4 eexists.
  split; [exact (proj1 (two_padded 50))|]. split; [exact (proj2 (two_padded 50))|]. split; [exact wtwo_made|]. split; [exact wheavy_made|].
  split; [exact two_edge|]. split; [exact wtwo_live|]. split; [exact wheavy_live|]. split; [exact (proj1 ones_sums)|]. split; [exact (proj1 heavy_sums)|].
  split; [exact (proj2 ones_sums)|]. split; [exact (proj2 heavy_sums)|]. split; [exact nw_env_permutes|]. split; [exact ones_700|]. split; [exact heavy_700|].
  split; [vm_compute; reflexivity|]. split; [vm_compute; reflexivity|]. split; [vm_compute; lia|]. split; [vm_compute; lia|]. discriminate.
Qed.
Print Assumptions C104_weighted_search_refuted.

Example C104_light_example : padded 13 14 (adj_rows two_rows) (adj_rows two_rows) /\ same_weights 13 ones (ones ++ [4%Z])
  /\ nmade half_even wtwo 13 (adj_rows two_rows) ones /\ nmade half_even wlight 14 (adj_rows two_rows) (ones ++ [4%Z]) /\ has_edge (adj_rows two_rows)
  /\ nstorage_live wtwo /\ nstorage_live wlight /\ sums_exact half_even ones /\ sums_exact half_even (ones ++ [4%Z]) /\ nonnegative ones
  /\ nonnegative (ones ++ [4%Z]) /\ npermutes nw_env /\ all_within 13 (adj_rows two_rows) ones 700 /\ all_within 14 (adj_rows two_rows) (ones ++ [4%Z]) 700
  /\ (forall v, 13 < v <= 14 -> exists u x, 1 <= u <= 13 /\ later_weight (adj_rows two_rows) ones u x /\ (vweight (ones ++ [4%Z]) v <= x)%Z)
  /\ answer (nw_get_max_clique half_even nw_env wtwo 0 700 false true) = Ok (Ret [4; 5; 6])
  /\ answer (nw_get_max_clique half_even nw_env wlight 2 700 false true) = Ok (Ret [4; 5; 6])
  /\ answer (nw_get_max_clique half_even nw_env wheavy 0 700 false true) = Ok (Ret [1; 2; 3]).
Proof.
  split; [exact (proj1 (two_padded 4))|]. split; [exact (proj2 (two_padded 4))|]. split; [exact wtwo_made|]. split; [exact wlight_made|].
  split; [exact two_edge|]. split; [exact wtwo_live|]. split; [exact wlight_live|]. split; [exact (proj1 ones_sums)|]. split; [exact (proj1 light_sums)|].
  split; [exact (proj2 ones_sums)|]. split; [exact (proj2 light_sums)|]. split; [exact nw_env_permutes|]. split; [exact ones_700|]. split; [exact light_700|].
  split; [exact light_light|]. split; [vm_compute; reflexivity|]. split; [vm_compute; reflexivity|]. vm_compute. reflexivity.
Qed.

(** all_cliques(T) lists the same cliques in the same order. *)
Theorem C104_weighted_list : forall rnd p p' n n' adj adj' w w', padded n n' adj adj' -> same_weights n w w' -> nmade rnd p n adj w -> nmade rnd p' n' adj' w' ->
  has_edge adj -> nstorage_live p -> nstorage_live p' -> sums_exact rnd w -> sums_exact rnd w' -> nonnegative w -> nonnegative w' ->
  forall e e' T lr lr', rises rnd -> exists en en' q x q' x' l, nw_all_cliques e p T = Ret en /\ nw_all_cliques e' p' T = Ret en'
    /\ (forall fuel, length l < fuel -> nw_drain rnd fuel lr p en = Ok (q, x, l)) /\ (forall fuel, length l < fuel -> nw_drain rnd fuel lr' p' en' = Ok (q', x', l)).
Proof. exact lone_nw_list. Qed.
Print Assumptions C104_weighted_list.

(** all_cliques(1) does list the new vertices. *)
Theorem C104_single_refuted : exists p p' n n' adj adj' en0 en0' q en l q' en' l', padded n n' adj adj' /\ made p n adj /\ made p' n' adj'
  /\ storage_live p /\ storage_live p' /\ all_cliques p 1 = Ret en0 /\ all_cliques p' 1 = Ret en0'
  /\ drain 20 true p en0 = Ok (q, en, l) /\ drain 20 true p' en0' = Ok (q', en', l') /\ l <> l'.
Proof.
  exists sample, lonely, 8, 12, (adj_rows sample_rows), (adj_rows sample_rows). do 8 eexists.
  split; [exact lonely_padded|]. split; [exact sample_made|]. split; [exact lonely_made|]. split; [exact sample_live|]. split; [exact lonely_live|].
  split; [vm_compute; reflexivity|]. split; [vm_compute; reflexivity|]. split; [vm_compute; reflexivity|]. split; [vm_compute; reflexivity|]. discriminate.
Qed.
Print Assumptions C104_single_refuted.

Example C104_example : padded 8 12 (adj_rows sample_rows) (adj_rows sample_rows) /\ made sample 8 (adj_rows sample_rows) /\ made lonely 12 (adj_rows sample_rows)
  /\ storage_live sample /\ storage_live lonely /\ has_edge (adj_rows sample_rows)
  /\ answer (get_max_clique timed sample 1 DEFAULT_UB false true false) = Ok (Ret [1; 2; 3; 4])
  /\ answer (get_max_clique timed lonely 2 DEFAULT_UB false true true) = Ok (Ret [1; 2; 3; 4])
  /\ answer (get_max_clique (run_env None) lonely 1 DEFAULT_UB true true true) = Ok (Ret [1; 2; 3; 4])
  /\ (exists q en, drain 9 true sample (new_enum 3) = Ok (q, en, [[2; 3; 4]; [5; 6; 7]]))
  /\ exists q en, drain 9 false lonely (new_enum 3) = Ok (q, en, [[2; 3; 4]; [5; 6; 7]]).
Proof.
  split; [exact lonely_padded|]. split; [exact sample_made|]. split; [exact lonely_made|]. split; [exact sample_live|]. split; [exact lonely_live|].
  split; [exact sample_edge|]. split; [vm_compute; reflexivity|]. split; [vm_compute; reflexivity|]. split; [vm_compute; reflexivity|].
  split; do 2 eexists; vm_compute; reflexivity.
Qed.

Example C104_weighted_example : padded 6 9 (adj_rows wrows) (adj_rows wrows) /\ same_weights 6 wwts lwts /\ nmade half_even wsample 6 (adj_rows wrows) wwts
  /\ nmade half_even wlonely 9 (adj_rows wrows) lwts /\ has_edge (adj_rows wrows) /\ nstorage_live wsample /\ nstorage_live wlonely
  /\ sums_exact half_even wwts /\ sums_exact half_even lwts /\ nonnegative wwts /\ nonnegative lwts /\ rises half_even
  /\ answer (nw_get_max_clique half_even nw_env wlonely 0 100 true true) = Ok (Ret [4; 5; 6])
  /\ (exists en q x, nw_all_cliques nw_env wsample 11 = Ret en /\ nw_drain half_even 9 true wsample en = Ok (q, x, [[4; 5; 6]; [5; 6]]))
  /\ exists en q x, nw_all_cliques nw_env wlonely 11 = Ret en /\ nw_drain half_even 9 true wlonely en = Ok (q, x, [[4; 5; 6]; [5; 6]]).
Proof.
  split; [exact (proj1 wlonely_padded)|]. split; [exact (proj2 wlonely_padded)|]. split; [exact wsample_made|]. split; [exact wlonely_made|]. split; [exact wsample_edge|].
  split; [exact wsample_live|]. split; [exact wlonely_live|]. split; [exact wwts_exact|]. split; [exact (proj1 lwts_sums)|]. split; [exact wwts_nonneg|].
  split; [exact (proj2 lwts_sums)|]. split; [exact half_even_rises|]. split; [vm_compute; reflexivity|].
  split; do 3 eexists; (split; [vm_compute; reflexivity|]); vm_compute; reflexivity.
Qed.
