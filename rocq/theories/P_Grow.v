(** P_Grow: the heaviest clique of a weighted graph inside another (C103). *)
From Verif Require Import Base MUtils MGraph MApi MNW MNWEnum MNWApi Spec SpecDec SpecNW SpecRound SetFacts LoadFacts NWRoundFacts NWProps NWSamples SpecScript SpecUnits UnitFacts UnitSamples SpecGrow GrowFacts GrowSamples.
Local Open Scope nat_scope.

(** More vertices, more edges and higher weights: what the search of the larger graph returns weighs at least as much as any clique of two or more
    vertices that the smaller graph ever returned, by the heuristic or not. *)
Theorem C103_grows_partial : forall n n' adj adj' w w' s, grows n n' adj adj' w w' s -> forall rnd p p', nmade rnd p n adj w -> nmade rnd p' n' adj' w' ->
  has_edge adj -> nstorage_live p -> nstorage_live p' -> sums_exact rnd w' -> nonnegative w' ->
  forall q q' e e' lb lb' ub ub' heur heur' dfs c, nhistory rnd p q -> nrested rnd n' adj' w' p' q' -> npermutes e -> npermutes e' -> all_within n' adj' w' ub' ->
  answer (nw_get_max_clique rnd e q lb ub heur dfs) = Ok (Ret c) -> 2 <= length c ->
  ends_with (nw_get_max_clique rnd e' q' lb' ub' heur' true) (fun '(_, r) => match r with
    | Ret c' => weight w c <= weight w' c'
    | Raise x => x = EBounds /\ weight w c <= lb'
    end)%Z.
Proof. exact grown_best. Qed.
Print Assumptions C103_grows_partial.

(** Numbering the vertices differently changes neither weight. *)
(** Missing: negative weights, rounded sums, answers of one vertex. *)
Theorem C103_renumber_partial : forall rnd p p' n adj adj' w w' s t, nmade rnd p n adj w -> nmade rnd p' n adj' w' ->
  grows n n adj adj' w w' s -> grows n n adj' adj w' w t ->
  has_edge adj -> nstorage_live p -> nstorage_live p' -> sums_exact rnd w -> nonnegative w -> sums_exact rnd w' -> nonnegative w' ->
  forall e e' lb lb' ub ub' heur heur' c c', npermutes e -> npermutes e' -> all_within n adj w ub -> all_within n adj' w' ub' ->
  answer (nw_get_max_clique rnd e p lb ub heur true) = Ok (Ret c) -> answer (nw_get_max_clique rnd e' p' lb' ub' heur' true) = Ok (Ret c') ->
  2 <= length c -> 2 <= length c' -> weight w c = weight w' c'.
Proof. exact renumber_weight. Qed.
Print Assumptions C103_renumber_partial.

(** The heuristic alone does not follow: with the weight of one vertex raised from 5 to 10, it returns a clique of weight 11 instead of 15. *)
Theorem C103_heuristic_refuted : exists n adj w w' p p' e c c', grows n n adj adj w w' (fun v => v) /\ nmade half_even p n adj w /\ nmade half_even p' n adj w'
  /\ has_edge adj /\ nstorage_live p /\ nstorage_live p' /\ sums_exact half_even w' /\ nonnegative w' /\ nsorts e
  /\ answer (nw_get_max_clique half_even e p 0 100 true false) = Ok (Ret c) /\ answer (nw_get_max_clique half_even e p' 0 100 true false) = Ok (Ret c')
  /\ (weight w c = 15)%Z /\ (weight w' c' = 11)%Z.
Proof.
  exists 6, (adj_rows hrows), hwts, hwts', hsample, hsample', nw_env, [3; 5], [2; 3].
  split; [exact hsample_grows|]. split; [exact hsample_made|]. split; [exact hsample'_made|]. split; [exact hsample_edge|].
  split; [exact hsample_live|]. split; [exact hsample'_live|]. split; [exact hwts'_exact|]. split; [intros y I; simpl in I; lia|].
  split; [exact nw_env_sorts|]. split; [vm_compute; reflexivity|]. split; [vm_compute; reflexivity|]. split; reflexivity.
Qed.
Print Assumptions C103_heuristic_refuted.

(** Neither does all_cliques(11): the triangle 4-5-6 is listed when it weighs 12, and not when it weighs 15. *)
Theorem C103_listed_refuted : exists n adj w w' p p' c en q x l en' q' x' l', grows n n adj adj w w' (fun v => v) /\ nmade half_even p n adj w /\ nmade half_even p' n adj w'
  /\ has_edge adj /\ nstorage_live p /\ nstorage_live p' /\ (11 <= weight w c < weight w' c)%Z
  /\ nw_all_cliques nw_env p 11 = Ret en /\ nw_drain half_even 9 true p en = Ok (q, x, l) /\ In c l
  /\ nw_all_cliques nw_env p' 11 = Ret en' /\ nw_drain half_even 9 true p' en' = Ok (q', x', l') /\ ~ In c l'.
Proof.
  exists 6, (adj_rows wrows), wwts, wwts', wsample, wraised, [4; 5; 6]. do 8 eexists.
  split; [exact wraised_grows|]. split; [exact wsample_made|]. split; [exact wraised_made|]. split; [exact wsample_edge|].
  split; [exact wsample_live|]. split; [exact wraised_live|]. split; [vm_compute; split; [discriminate|reflexivity]|].
  split; [vm_compute; reflexivity|]. split; [vm_compute; reflexivity|]. split; [left; reflexivity|].
  split; [vm_compute; reflexivity|]. split; [vm_compute; reflexivity|]. intros [E|[E|[]]]; discriminate E.
Qed.
Print Assumptions C103_listed_refuted.

Example C103_example : grows 6 6 (adj_rows hrows) (adj_rows hrows) hwts hwts' (fun v => v) /\ nmade half_even hsample 6 (adj_rows hrows) hwts
  /\ nmade half_even hsample' 6 (adj_rows hrows) hwts' /\ has_edge (adj_rows hrows) /\ nstorage_live hsample /\ nstorage_live hsample'
  /\ sums_exact half_even hwts' /\ npermutes nw_env
  /\ answer (nw_get_max_clique half_even nw_env hsample 0 100 true false) = Ok (Ret [3; 5])
  /\ answer (nw_get_max_clique half_even nw_env hsample' 0 100 true true) = Ok (Ret [3; 5])
  /\ answer (nw_get_max_clique half_even nw_env hsample' 15 100 true true) = Ok (Raise EBounds).
Proof.
  split; [exact hsample_grows|]. split; [exact hsample_made|]. split; [exact hsample'_made|]. split; [exact hsample_edge|].
  split; [exact hsample_live|]. split; [exact hsample'_live|]. split; [exact hwts'_exact|]. split; [exact nw_env_permutes|].
  split; [vm_compute; reflexivity|]. split; vm_compute; reflexivity.
Qed.

Example C103_renumber_example : grows 6 6 (adj_rows wrows) (adj_rows brows) wwts bwts (fun v => 7 - v) /\ grows 6 6 (adj_rows brows) (adj_rows wrows) bwts wwts (fun v => 7 - v)
  /\ nmade half_even bsample 6 (adj_rows brows) bwts /\ nstorage_live bsample /\ sums_exact half_even bwts /\ nonnegative bwts
  /\ answer (nw_get_max_clique half_even nw_env wsample 0 100 true true) = Ok (Ret [4; 5; 6])
  /\ answer (nw_get_max_clique half_even nw_env bsample 0 100 true true) = Ok (Ret [1; 2; 3])
  /\ weight wwts [4; 5; 6] = 12%Z /\ weight bwts [1; 2; 3] = 12%Z.
Proof.
  split; [exact (proj1 backwards)|]. split; [exact (proj2 backwards)|]. split; [exact bsample_made|]. split; [exact bsample_live|].
  split; [exact (proj1 bwts_sums)|]. split; [exact (proj2 bwts_sums)|]. split; [vm_compute; reflexivity|]. split; [vm_compute; reflexivity|]. split; reflexivity.
Qed.

(** Renumbering does not renumber the list of all_cliques(T): with the heaviest vertex of a triangle first, only two cliques are listed, not three. *)
Theorem C103_renumber_listed_refuted : exists n adj w w' s p p' en q x l en' q' x' l',
  grows n n adj adj w w' s /\ grows n n adj adj w' w s /\ (forall v, s (s v) = v) /\ nmade half_even p n adj w /\ nmade half_even p' n adj w'
  /\ has_edge adj /\ nstorage_live p /\ nstorage_live p'
  /\ nw_all_cliques nw_env p 4 = Ret en /\ nw_drain half_even 9 true p en = Ok (q, x, l)
  /\ nw_all_cliques nw_env p' 4 = Ret en' /\ nw_drain half_even 9 true p' en' = Ok (q', x', l') /\ length l = 3 /\ length l' = 2.
Proof.
  exists 7, (adj_rows trows), twts, twts', tswap, tsample, tsample'. do 8 eexists.
  split; [exact twts_grows|]. split; [exact twts'_grows|]. split; [intros v; do 5 (destruct v as [|v]; [reflexivity|]); reflexivity|].
  split; [exact tsample_made|]. split; [exact tsample'_made|].
  split; [exact tsample_edge|]. split; [exact tsample_live|]. split; [exact tsample'_live|]. split; [vm_compute; reflexivity|]. split; [vm_compute; reflexivity|].
  split; [vm_compute; reflexivity|]. split; [vm_compute; reflexivity|]. split; reflexivity.
Qed.
Print Assumptions C103_renumber_listed_refuted.
