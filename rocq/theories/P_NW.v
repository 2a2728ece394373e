(** P_NW: the node-weighted graph (C36-C40, C58). *)
From Verif Require Import Base MUtils MGraph MApi MNW MNWEnum MNWApi Spec SpecDec SpecNW LoadFacts NWProps SpecRound NWRoundFacts NWSamples.
From Coq Require Import Sorting.Sorted Sorting.Permutation.
Local Open Scope nat_scope.

(** * C36 *)
Theorem C36_edgelist_accepts : forall rnd rows n w, fits (n + 1 + 2 * length rows) ->
  ends_with (nw_from_edgelist rnd rows n w) (fun r => (rows_ok n rows /\ length w = n /\ exists p, r = Ret p)
     \/ (~ (rows_ok n rows /\ length w = n) /\ exists e, r = Raise e)).
Proof. exact nw_edgelist_accepts. Qed.
Print Assumptions C36_edgelist_accepts.

Theorem C36_matrix_accepts : forall rnd rows cols M w, fits (1 + 2 * (rows * rows)) ->
  ends_with (nw_from_matrix rnd rows cols M w) (fun r => (rows = cols /\ length w = rows /\ exists p, r = Ret p)
     \/ (~ (rows = cols /\ length w = rows) /\ exists e, r = Raise e)).
Proof. exact nw_matrix_accepts. Qed.
Print Assumptions C36_matrix_accepts.

(** For both loaders: the weights read back are the ones given, and the neighbours are those of the input. *)
Theorem C36_weights : forall rnd p n adj w, nmade rnd p n adj w -> 1 <= n -> nw_all_weights p = Ok (Ret w).
Proof. exact nmade_weights. Qed.
Print Assumptions C36_weights.

Theorem C36_neighbors : forall rnd p n adj w v, nmade rnd p n adj w -> 1 <= v <= n ->
  ends_with (nw_vertex_data p v) (fun r => exists l, r = Ret (nth (v - 1) w 0%Z, l) /\ StronglySorted lt l /\ forall u, In u l <-> adj v u).
Proof. exact nmade_neighbors. Qed.
Print Assumptions C36_neighbors.

(** from_adjlist reads past the end of the weights for every input it accepts. *)
Theorem C36_adjlist_undefined : forall rnd n m A w, fits (length A + list_sum (map (@length nat) A)) -> sets_ok n m A -> length w = n ->
  nw_from_adjlist rnd n m A w = UB OobRead.
Proof. exact nw_adjlist_fails. Qed.
Print Assumptions C36_adjlist_undefined.

Theorem C36_adjlist_refuted : exists n m A w, sets_ok n m A /\ length w = n
  /\ ~ (exists p, nw_from_adjlist half_even n m A w = Ok (Ret p) /\ nw_all_weights p = Ok (Ret w)).
Proof.
  exists 3, 2, [[]; [2]; [1; 3]; [2]], [1; 2; 3]%Z. split; [|split; [reflexivity|]].
  - split; [reflexivity|]. split; [reflexivity|]. split; [|reflexivity].
    intros i j I. do 4 (destruct i as [|i]; [simpl in I; repeat (destruct I as [<-|I]; [simpl; intuition lia|]); destruct I|]).
    simpl in I. destruct i; destruct I.
  - intros (p & E & _). vm_compute in E. discriminate.
Qed.
Print Assumptions C36_adjlist_refuted.

Example C36_example : nmade half_even wsample 6 (adj_rows wrows) wwts /\ nw_all_weights wsample = Ok (Ret [5; 1; 1; 1; 9; 2]%Z)
  /\ nw_vertex_data wsample 5 = Ok (Ret (9%Z, [4; 6])).
Proof. split; [exact wsample_made|]. split; vm_compute; reflexivity. Qed.

(** * C37 *)
(** Missing: weights that are all 0 or negative (C37_zero_weights_refuted) and sums that are rounded. *)
Theorem C37_clique_positive_partial : forall rnd p n adj w, nmade rnd p n adj w -> has_edge adj -> nstorage_live p ->
  forall q e lb ub heur dfs, sums_exact rnd w -> nonnegative w -> (exists x, In x w /\ (0 < x)%Z) -> nhistory rnd p q -> npermutes e ->
  ends_with (nw_get_max_clique rnd e q lb ub heur dfs) (fun '(_, r) => match r with
     | Ret c => clique n adj c /\ (lb <= weight w c)%Z
     | Raise x => x = EBounds
     end).
Proof. exact nw_clique_positive. Qed.
Print Assumptions C37_clique_positive_partial.

(** Any weights, negative ones included: the only other list is the non-existent vertex 0. *)
Theorem C37_clique_or_zero : forall rnd p n adj w, nmade rnd p n adj w -> has_edge adj -> nstorage_live p ->
  forall q e lb ub heur dfs, nhistory rnd p q -> npermutes e ->
  ends_with (nw_get_max_clique rnd e q lb ub heur dfs) (fun '(_, r) => match r with
     | Ret c => (c = [0] \/ clique n adj c) /\ (sums_exact rnd w -> lb <= weight w c)%Z
     | Raise x => x = EBounds
     end).
Proof. exact nw_clique. Qed.
Print Assumptions C37_clique_or_zero.

(** With all weights 0, vertex 0 is returned. *)
Theorem C37_zero_weights_refuted : exists p n adj w e c, nmade half_even p n adj w /\ has_edge adj /\ nstorage_live p /\ sums_exact half_even w /\ nonnegative w /\ nsorts e
  /\ answer (nw_get_max_clique half_even e p 0 100 true true) = Ok (Ret c) /\ ~ clique n adj c.
Proof.
  destruct (nw_from_edgelist half_even wrows 6 [0; 0; 0; 0; 0; 0]%Z) as [[p|]| |] eqn:E; try (vm_compute in E; discriminate).
  exists p, 6, (adj_rows wrows), [0; 0; 0; 0; 0; 0]%Z, nw_env, [0].
  split; [apply nmade_edgelist; [unfold fits; vm_compute; reflexivity|exact E]|]. split; [exact wsample_edge|].
  vm_compute in E. injection E as <-. split; [eexists; split; [reflexivity|vm_compute; reflexivity]|].
  split; [apply small_sums; reflexivity|]. split; [intros x I; simpl in I; lia|]. split; [exact nw_env_sorts|]. split; [vm_compute; reflexivity|].
  intros (_ & H & _). specialize (H 0 (or_introl eq_refl)). lia.
Qed.
Print Assumptions C37_zero_weights_refuted.

Example C37_example : nmade half_even wsample 6 (adj_rows wrows) wwts /\ has_edge (adj_rows wrows) /\ nstorage_live wsample
  /\ sums_exact half_even wwts /\ nonnegative wwts /\ (exists x, In x wwts /\ (0 < x)%Z) /\ npermutes nw_env
  /\ exists q r, nw_get_max_clique half_even nw_env wsample 20 100 true false = Ok (q, r) /\ nhistory half_even wsample q
  /\ exists q', nw_reset_search q = Ok q' /\ nhistory half_even wsample q' /\ answer (nw_get_max_clique half_even nw_env q' 3 7 false true) = Ok (Ret [4; 5; 6]).
Proof.
  split; [exact wsample_made|]. split; [exact wsample_edge|]. split; [exact wsample_live|]. split; [exact wwts_exact|]. split; [exact wwts_nonneg|].
  split; [exists 9%Z; split; [simpl; auto 9|lia]|]. split; [exact nw_env_permutes|].
  destruct (nw_get_max_clique half_even nw_env wsample 20 100 true false) as [[q r]| |] eqn:E; try (vm_compute in E; discriminate).
  exists q, r. split; [reflexivity|]. assert (H : nhistory half_even wsample q) by (eapply nh_get; [apply nh_start|exact nw_env_permutes|exact E]).
  split; [exact H|]. vm_compute in E. injection E as <- <-. eexists. split; [reflexivity|]. split; [eapply nh_reset; [exact H|reflexivity]|].
  vm_compute. reflexivity.
Qed.

(** * C38 *)
(** On a fresh object, or one reset after calls whose upper bounds excluded nothing: no clique of two or more vertices is
    heavier than the answer. When the call raises, none is heavier than the lower bound. *)
Theorem C38_heaviest_partial : forall rnd p n adj w, nmade rnd p n adj w -> has_edge adj -> nstorage_live p -> sums_exact rnd w -> nonnegative w ->
  forall q e lb ub heur, nrested rnd n adj w p q -> npermutes e -> all_within n adj w ub ->
  ends_with (nw_get_max_clique rnd e q lb ub heur true) (fun '(q', r) => match r with
     | Ret c => all_within n adj w (weight w c)
     | Raise x => x = EBounds /\ all_within n adj w lb
     end).
Proof. exact nw_heaviest. Qed.
Print Assumptions C38_heaviest_partial.

(** What is missing for the full claim: single vertices without neighbours. *)
Theorem C38_within_partial : forall n adj w M d, simple n adj -> nonnegative w -> has_edge adj -> all_within n adj w M -> clique n adj d ->
  (forall v, d = [v] -> exists u, adj v u) -> (weight w d <= M)%Z.
Proof. exact within_all. Qed.
Print Assumptions C38_within_partial.

(** A heavy isolated vertex is missed. *)
Theorem C38_isolated_refuted : exists p n adj w e c d, nmade half_even p n adj w /\ has_edge adj /\ nstorage_live p /\ sums_exact half_even w /\ nonnegative w /\ nsorts e
  /\ answer (nw_get_max_clique half_even e p 0 1000 true true) = Ok (Ret c) /\ clique n adj d /\ (weight w c < weight w d <= 1000)%Z.
Proof.
  destruct (nw_from_edgelist half_even wrows 7 [5; 1; 1; 1; 9; 2; 100]%Z) as [[p|]| |] eqn:E; try (vm_compute in E; discriminate).
  exists p, 7, (adj_rows wrows), [5; 1; 1; 1; 9; 2; 100]%Z, nw_env, [4; 5; 6], [7].
  split; [apply nmade_edgelist; [unfold fits; vm_compute; reflexivity|exact E]|]. split; [exact wsample_edge|].
  vm_compute in E. injection E as <-. split; [eexists; split; [reflexivity|vm_compute; reflexivity]|].
  split; [apply small_sums; reflexivity|]. split; [intros x I; simpl in I; lia|]. split; [exact nw_env_sorts|]. split; [vm_compute; reflexivity|].
  split; [apply cliqueb_sound; vm_compute; reflexivity|]. vm_compute. split; [reflexivity|discriminate].
Qed.
Print Assumptions C38_isolated_refuted.

(** A lower bound equal to the largest weight makes the search raise. *)
Theorem C38_tight_bound_refuted : exists p n adj w e d, nmade half_even p n adj w /\ has_edge adj /\ nstorage_live p /\ sums_exact half_even w /\ nonnegative w /\ nsorts e
  /\ clique n adj d /\ weight w d = 12%Z /\ answer (nw_get_max_clique half_even e p 12 100 true true) = Ok (Raise EBounds).
Proof.
  exists wsample, 6, (adj_rows wrows), wwts, nw_env, [4; 5; 6]. split; [exact wsample_made|]. split; [exact wsample_edge|].
  split; [exact wsample_live|]. split; [exact wwts_exact|]. split; [exact wwts_nonneg|]. split; [exact nw_env_sorts|].
  split; [apply cliqueb_sound; vm_compute; reflexivity|]. split; vm_compute; reflexivity.
Qed.
Print Assumptions C38_tight_bound_refuted.

Example C38_example : nmade half_even wsample 6 (adj_rows wrows) wwts /\ has_edge (adj_rows wrows) /\ nstorage_live wsample
  /\ sums_exact half_even wwts /\ nonnegative wwts /\ nrested half_even 6 (adj_rows wrows) wwts wsample wsample /\ npermutes nw_env
  /\ answer (nw_get_max_clique half_even nw_env wsample 0 100 true true) = Ok (Ret [4; 5; 6]) /\ weight wwts [4; 5; 6] = 12%Z
  /\ clique 6 (adj_rows wrows) [1; 2; 3; 4] /\ weight wwts [1; 2; 3; 4] = 8%Z.
Proof.
  split; [exact wsample_made|]. split; [exact wsample_edge|]. split; [exact wsample_live|]. split; [exact wwts_exact|]. split; [exact wwts_nonneg|].
  split; [left; reflexivity|]. split; [exact nw_env_permutes|]. split; [vm_compute; reflexivity|]. split; [reflexivity|].
  split; [apply cliqueb_sound; vm_compute; reflexivity|reflexivity].
Qed.

(** * C39 *)
Theorem C39_clique_weight : forall rnd p n adj w, nmade rnd p n adj w -> has_edge adj -> nstorage_live p ->
  forall q c, (forall c1 c2, c = c1 ++ c2 -> rnd (weight w c1) = weight w c1) -> nhistory rnd p q ->
  nw_get_clique_weight rnd q c = Ok (Ret (weight w c)).
Proof. exact nw_weight_sum. Qed.
Print Assumptions C39_clique_weight.

Theorem C39_clique_weight_fresh : forall rnd p n adj w c, nmade rnd p n adj w -> 1 <= n ->
  (forall c1 c2, c = c1 ++ c2 -> rnd (weight w c1) = weight w c1) -> nw_get_clique_weight rnd p c = Ok (Ret (weight w c)).
Proof. exact nw_weight_fresh. Qed.
Print Assumptions C39_clique_weight_fresh.

Example C39_example : nmade half_even wsample 6 (adj_rows wrows) wwts /\ nw_get_clique_weight half_even wsample [5; 1; 5] = Ok (Ret 23%Z).
Proof. split; [exact wsample_made|]. vm_compute. reflexivity. Qed.

(** * C40 *)
(** [nw_drain rnd fuel] iterates to the end; it returns for every fuel above the number of items. Any weights and any W. *)
Theorem C40_heavy_minimal : forall rnd p n adj w, nmade rnd p n adj w -> has_edge adj -> nstorage_live p -> forall q e T lr, nhistory rnd p q ->
  exists en q' en' l, nw_all_cliques e q T = Ret en
    /\ (forall fuel, length l < fuel -> nw_drain rnd fuel lr q en = Ok (q', en', l))
    /\ NoDup l /\ forall d, In d l -> clique n adj d /\ 2 <= length d /\ (sums_exact rnd w -> exists v, v <> 1 /\ heavy_minimal n adj w T d v).
Proof. exact nw_all_minimal. Qed.
Print Assumptions C40_heavy_minimal.

Example C40_example : nmade half_even wsample 6 (adj_rows wrows) wwts /\ has_edge (adj_rows wrows) /\ nstorage_live wsample
  /\ exists en q en', nw_all_cliques nw_env wsample 3 = Ret en
  /\ nw_drain half_even 7 true wsample en = Ok (q, en', [[2; 3; 4]; [4; 5]; [5; 6]; [4; 6]]) /\ nhistory half_even wsample q
  /\ exists en2 q2 en2', nw_all_cliques nw_env q 8 = Ret en2 /\ nw_drain half_even 7 true q en2 = Ok (q2, en2', [[4; 5]; [5; 6]]).
Proof.
  split; [exact wsample_made|]. split; [exact wsample_edge|]. split; [exact wsample_live|].
  exists (wen wsample 3), (wafter wsample 3), (snd (fst (wout wsample 3))). split; [exact (wsample_all 3)|]. split; [exact wsample_3|].
  split; [eapply nh_all; [apply nh_start|exact (wsample_all 3)|exact wsample_3]|]. do 3 eexists. exact wsample_3_8.
Qed.

(** * C58 *)
(** Complete but for the cliques the search starts at vertex 1: all minimal ones are listed, so every heavy clique contains one. *)
Theorem C58_minimal_partial : forall rnd p n adj w, nmade rnd p n adj w -> has_edge adj -> nstorage_live p -> sums_exact rnd w -> nonnegative w ->
  forall q e T lr, rises rnd -> nunhurried rnd n adj w p q -> exists en q' en' l, nw_all_cliques e q T = Ret en
    /\ (forall fuel, length l < fuel -> nw_drain rnd fuel lr q en = Ok (q', en', l))
    /\ forall d v, heavy_minimal n adj w T d v -> v <> 1 -> In d l.
Proof. exact nw_all_complete. Qed.
Print Assumptions C58_minimal_partial.

Theorem C58_covers_partial : forall rnd p n adj w, nmade rnd p n adj w -> has_edge adj -> nstorage_live p -> sums_exact rnd w -> rises rnd -> nonnegative w ->
  forall q e T lr, nunhurried rnd n adj w p q -> exists en q' en' l, nw_all_cliques e q T = Ret en
    /\ (forall fuel, length l < fuel -> nw_drain rnd fuel lr q en = Ok (q', en', l))
    /\ forall c v, clique n adj c -> 2 <= length c -> (T <= weight w c)%Z -> starts_at adj w c v -> v <> 1 ->
         exists d, In d l /\ incl d c.
Proof. exact nw_all_covers. Qed.
Print Assumptions C58_covers_partial.

(** {1,2,3,4} weighs 8 and contains no listed clique. *)
Theorem C58_vertex_1_refuted : exists p n adj w e T en q en' l c, nmade half_even p n adj w /\ has_edge adj /\ nstorage_live p /\ sums_exact half_even w /\ rises half_even /\ nonnegative w
  /\ nw_all_cliques e p T = Ret en /\ nw_drain half_even 7 true p en = Ok (q, en', l)
  /\ clique n adj c /\ 2 <= length c /\ (T <= weight w c)%Z /\ ~ exists d, In d l /\ incl d c.
Proof.
  exists wsample, 6, (adj_rows wrows), wwts, nw_env, 8%Z, (wen wsample 8), (wafter wsample 8), (snd (fst (wout wsample 8))), [[4; 5]; [5; 6]], [1; 2; 3; 4].
  split; [exact wsample_made|]. split; [exact wsample_edge|]. split; [exact wsample_live|]. split; [exact wwts_exact|]. split; [exact half_even_rises|]. split; [exact wwts_nonneg|].
  split; [exact (wsample_all 8)|]. split; [exact wsample_8|].
  split; [apply cliqueb_sound; vm_compute; reflexivity|]. split; [simpl; lia|]. split; [vm_compute; discriminate|].
  intros (d & I & H). simpl in I. destruct I as [<-|[<-|[]]]; specialize (H 5 ltac:(simpl; auto)); simpl in H; lia.
Qed.
Print Assumptions C58_vertex_1_refuted.

Example C58_example : nmade half_even wsample 6 (adj_rows wrows) wwts /\ has_edge (adj_rows wrows) /\ nstorage_live wsample /\ sums_exact half_even wwts /\ rises half_even /\ nonnegative wwts
  /\ exists q r, nw_get_max_clique half_even nw_env wsample 0 100 true true = Ok (q, r) /\ nunhurried half_even 6 (adj_rows wrows) wwts wsample q
  /\ exists en q' en', nw_all_cliques nw_env q 12 = Ret en /\ nw_drain half_even 7 true q en = Ok (q', en', [[4; 5; 6]]).
Proof.
  split; [exact wsample_made|]. split; [exact wsample_edge|]. split; [exact wsample_live|]. split; [exact wwts_exact|]. split; [exact half_even_rises|]. split; [exact wwts_nonneg|].
  exists wfound, (Ret [4; 5; 6]). split; [exact wfound_eq|].
  split; [eapply nu_get; [apply nu_start|exact nw_env_permutes|exact wwts_100|exact wfound_eq]|]. do 3 eexists. exact wfound_12.
Qed.
