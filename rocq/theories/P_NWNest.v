(** P_NWNest: loops over NWGraph.all_cliques left by break, and nested loops (C81). *)
From Verif Require Import Base MUtils MGraph MApi MNW MNWEnum MNWApi Spec SpecNW SpecNWNest SpecRound NWRoundFacts NWSamples NWNestProps NWNestSamples.
Local Open Scope nat_scope.

(** * C81. A loop was left by break; get_max_clique works as before. *)
Theorem C81_one_break : forall rnd p n adj w, nmade rnd p n adj w -> has_edge adj -> nstorage_live p ->
  forall lr full x q e lb ub heur dfs, nwloops rnd n adj w lr full p [x] q -> npermutes e ->
  ends_with (nw_get_max_clique rnd e q lb ub heur dfs) (fun r =>
    match snd r with
    | Ret c => (c = [0] /\ ~ positive_weights rnd w \/ clique n adj c) /\ (sums_exact rnd w -> lb <= weight w c)%Z
    | Raise x => x = EBounds
    end).
Proof. exact nw_one_search. Qed.
Print Assumptions C81_one_break.

Theorem C81_breaks : forall rnd p n adj w, nmade rnd p n adj w -> has_edge adj -> nstorage_live p ->
  forall lr full st q e lb ub heur dfs, nwloops rnd n adj w lr full p st q -> nw_roomleft n adj st -> npermutes e ->
  ends_with (nw_get_max_clique rnd e q lb ub heur dfs) (fun r =>
    match snd r with
    | Ret c => (c = [0] /\ ~ positive_weights rnd w \/ clique n adj c) /\ (sums_exact rnd w -> lb <= weight w c)%Z
    | Raise x => x = EBounds
    end).
Proof. exact nw_nest_search. Qed.
Print Assumptions C81_breaks.

Theorem C81_breaks_reset : forall rnd p n adj w, nmade rnd p n adj w -> has_edge adj -> nstorage_live p ->
  forall lr st q q' e lb ub heur, sums_exact rnd w -> rises rnd -> nonnegative w ->
  nwloops rnd n adj w lr true p st q -> nw_roomleft n adj st -> nw_reset_search q = Ok q' -> npermutes e -> all_within n adj w ub ->
  ends_with (nw_get_max_clique rnd e q' lb ub heur true) (fun r => match snd r with
     | Ret c => all_within n adj w (weight w c)
     | Raise x => x = EBounds /\ all_within n adj w lb
     end).
Proof. exact nw_nest_heaviest. Qed.
Print Assumptions C81_breaks_reset.

(** The innermost of nested loops returns heavy cliques, none twice, and when it stops it has returned all of them. *)
Theorem C81_nested : forall rnd p n adj w, nmade rnd p n adj w -> has_edge adj -> nstorage_live p ->
  forall lr full st q T en l, (full = true -> sums_exact rnd w /\ rises rnd /\ nonnegative w) ->
  nwloops rnd n adj w lr full p (mkNL T en l :: st) q -> nw_roomleft n adj st ->
  ends_with (nw_next_clique rnd lr q en) (fun r =>
    match snd r with
    | Ret c => clique n adj c /\ 2 <= length c /\ ~ In c l /\ (sums_exact rnd w -> exists v, v <> 1 /\ heavy_minimal n adj w T c v)
    | Raise x => x = EStopIteration /\ (full = true -> forall d v, heavy_minimal n adj w T d v -> v <> 1 -> In d l)
    end).
Proof. exact nw_nest_next. Qed.
Print Assumptions C81_nested.

Theorem C81_two_loops : forall rnd p n adj w, nmade rnd p n adj w -> has_edge adj -> nstorage_live p ->
  forall lr full x q T en l, (full = true -> sums_exact rnd w /\ rises rnd /\ nonnegative w) ->
  nwloops rnd n adj w lr full p [mkNL T en l; x] q ->
  ends_with (nw_next_clique rnd lr q en) (fun r =>
    match snd r with
    | Ret c => clique n adj c /\ 2 <= length c /\ ~ In c l /\ (sums_exact rnd w -> exists v, v <> 1 /\ heavy_minimal n adj w T c v)
    | Raise x => x = EStopIteration /\ (full = true -> forall d v, heavy_minimal n adj w T d v -> v <> 1 -> In d l)
    end).
Proof. exact nw_two_next. Qed.
Print Assumptions C81_two_loops.

(** What any of the loops, also one left by break, has returned so far. *)
Theorem C81_returned : forall rnd p n adj w, nmade rnd p n adj w -> has_edge adj -> nstorage_live p ->
  forall lr full st q T en l, nwloops rnd n adj w lr full p st q -> In (mkNL T en l) st ->
  NoDup l /\ forall d, In d l -> clique n adj d /\ 2 <= length d /\ (sums_exact rnd w -> exists v, v <> 1 /\ heavy_minimal n adj w T d v).
Proof. exact nw_nest_items. Qed.
Print Assumptions C81_returned.

(** What the innermost iterator returns is what it would return alone on the freshly loaded graph, in the same order. *)
Theorem C81_undisturbed : forall rnd p n adj w, nmade rnd p n adj w -> has_edge adj -> nstorage_live p ->
  forall lr st q T en l, sums_exact rnd w -> rises rnd -> nonnegative w ->
  nwloops rnd n adj w lr true p (mkNL T en l :: st) q -> nw_roomleft n adj st ->
  ends_with (nw_next_clique rnd lr q en) (fun r => forall e, exists en0 q0 en1 L, nw_all_cliques e p T = Ret en0
    /\ (forall fuel, length L < fuel -> nw_drain rnd fuel lr p en0 = Ok (q0, en1, L))
    /\ match snd r with
       | Ret c => exists rest, L = l ++ c :: rest
       | Raise x => x = EStopIteration /\ L = l
       end).
Proof. exact nw_nest_whole. Qed.
Print Assumptions C81_undisturbed.

Example C81_example : exists q1 q2, nwloops half_even 6 (adj_rows wrows) wwts true true wsample [nwouter] q1
  /\ nwloops half_even 6 (adj_rows wrows) wwts true true wsample [nwinner; nwouter] q2
  /\ nw_roomleft 6 (adj_rows wrows) [nwouter] /\ nw_roomleft 6 (adj_rows wrows) [nwinner; nwouter]
  /\ nmade half_even wsample 6 (adj_rows wrows) wwts /\ has_edge (adj_rows wrows) /\ nstorage_live wsample
  /\ positive_weights half_even wwts /\ rises half_even /\ all_within 6 (adj_rows wrows) wwts 100
  /\ nl_items nwouter = [[2; 3; 4]] /\ nl_items nwinner = [[4; 5]; [5; 6]]
  /\ exists q3, nw_reset_search q2 = Ok q3.
Proof.
  do 2 eexists. split; [exact nwouter_loop|]. split; [exact nwinner_loop|]. split; [exact nwouter_fit|]. split; [exact nwinner_fit|].
  split; [exact wsample_made|]. split; [exact wsample_edge|]. split; [exact wsample_live|]. split; [exact wwts_positive|]. split; [exact half_even_rises|].
  split; [exact wwts_100|]. split; [reflexivity|]. split; [reflexivity|]. eexists. vm_compute. reflexivity.
Qed.

(** The condition nw_roomleft is needed: two iterators that stopped at triangles, in a graph without larger cliques. *)
Theorem C81_abandon_refuted : exists rows n w p q e, nsorts e /\ fits (n + 1 + 2 * length rows) /\ nw_from_edgelist half_even rows n w = Ok (Ret p)
  /\ nstorage_live p /\ positive_weights half_even w /\ nw_abandon half_even e 2 3 p = Ok q
  /\ nw_get_max_clique half_even e q 0 100 false true = UB OobRead.
Proof. exact nw_abandon_then_search. Qed.
Print Assumptions C81_abandon_refuted.

(** Only the innermost iterator may be advanced: taken in turn, two iterators both miss [5; 6]. *)
Theorem C81_interleave_refuted : exists q en', nw_all_cliques nw_env wsample 3 = Ret nwn0
  /\ nw_drain half_even 7 true wsample nwn0 = Ok (q, en', [[2; 3; 4]; [4; 5]; [5; 6]; [4; 6]])
  /\ nw_alternate half_even 4 wsample nwn0 nwn0
     = Ok ([Ret [2; 3; 4]; Ret [4; 5]; Ret [4; 6]; Raise EStopIteration], [Ret [2; 3; 4]; Ret [4; 5]; Ret [4; 6]; Raise EStopIteration]).
Proof. exact nw_alternate_misses. Qed.
Print Assumptions C81_interleave_refuted.
