(** P_Nest: loops over all_cliques left by break, and nested loops (C33, C34). Further counterexamples are in P_Refute. *)
From Verif Require Import Base MUtils MGraph MEnum MApi Spec SpecDec SpecNest SearchProps Samples NestFacts NestSamples OrderFacts.
Local Open Scope nat_scope.

(** * C33. Missing: searches with a time limit (C33_timed_refuted), and iterators left unfinished that are together larger
    than a clique and 1 (C33_abandon_refuted). *)
Theorem C33_one_break_partial : forall p n adj lr full x q e lb ub heur dfs cont,
  made p n adj -> has_edge adj -> storage_live p -> loops n adj lr full p [x] q -> permutes e -> untimed e ->
  ends_with (get_max_clique e q lb ub heur dfs cont) (fun r =>
    match snd r with Ret c => clique n adj c /\ lb <= length c | Raise x => x = EBounds end).
Proof. exact one_search. Qed.
Print Assumptions C33_one_break_partial.

Theorem C33_breaks_partial : forall p n adj lr full st q e lb ub heur dfs cont,
  made p n adj -> has_edge adj -> storage_live p -> loops n adj lr full p st q -> roomleft n adj st -> permutes e -> untimed e ->
  ends_with (get_max_clique e q lb ub heur dfs cont) (fun r =>
    match snd r with Ret c => clique n adj c /\ lb <= length c | Raise x => x = EBounds end).
Proof. exact nest_search. Qed.
Print Assumptions C33_breaks_partial.

Theorem C33_breaks_reset_partial : forall p n adj lr st q q' e lb ub heur cont,
  made p n adj -> has_edge adj -> storage_live p -> loops n adj lr true p st q -> roomleft n adj st -> reset_search q = Ok q' ->
  permutes e -> untimed e -> (exists d, clique n adj d /\ lb < length d) -> (forall d, clique n adj d -> length d <= ub) ->
  ends_with (get_max_clique e q' lb ub heur true cont) (fun r => exists c, snd r = Ret c /\ maximum_clique n adj c).
Proof. exact nest_maximum. Qed.
Print Assumptions C33_breaks_reset_partial.

(** One iterator, advanced once, and one search whose time never runs out. *)
Theorem C33_timed_refuted : exists rows n p e q en, sorts e /\ never_late e /\ from_edgelist rows n = Ok (Ret p) /\ storage_live p
  /\ next_clique true p (new_enum 3) = Ok (q, en, Ret [2; 3; 4])
  /\ get_max_clique e q 1 DEFAULT_UB false true false = UB OobRead.
Proof. exact break_then_timed. Qed.
Print Assumptions C33_timed_refuted.

Example C33_example : exists q q1, loops 8 (adj_rows sample_rows) true true sample [outer] q
  /\ loops 8 (adj_rows sample_rows) true true sample [inner; outer] q1 /\ roomleft 8 (adj_rows sample_rows) [inner; outer]
  /\ made sample 8 (adj_rows sample_rows) /\ has_edge (adj_rows sample_rows) /\ storage_live sample
  /\ exists q2, reset_search q1 = Ok q2.
Proof.
  do 2 eexists. split; [exact outer_loop|]. split; [exact inner_loop|]. split; [exact inner_fit|]. split; [exact sample_made|].
  split; [exact sample_edge|]. split; [exact sample_live|]. eexists. vm_compute. reflexivity.
Qed.

(** * C34. Missing: iterators advanced in turn (C34_interleave_refuted). When loops are nested, every iterator returns cliques
    of its size, none twice and none rooted at vertex 1, and when it stops it has returned all of them. *)
Theorem C34_nested_partial : forall p n adj lr full st q k en l,
  made p n adj -> has_edge adj -> storage_live p -> loops n adj lr full p (mkL k en l :: st) q -> roomleft n adj st ->
  ends_with (next_clique lr q en) (fun r =>
    match snd r with
    | Ret c => clique n adj c /\ length c = k /\ ~ In c l /\ (2 <= k -> ~ first_at_1 adj c)
    | Raise x => x = EStopIteration
        /\ (full = true -> forall d, clique n adj d -> length d = k -> 1 <= k -> (2 <= k -> ~ first_at_1 adj d) -> In d l)
    end).
Proof. exact nest_next. Qed.
Print Assumptions C34_nested_partial.

Theorem C34_two_loops_partial : forall p n adj lr full x q k en l,
  made p n adj -> has_edge adj -> storage_live p -> loops n adj lr full p [mkL k en l; x] q ->
  ends_with (next_clique lr q en) (fun r =>
    match snd r with
    | Ret c => clique n adj c /\ length c = k /\ ~ In c l /\ (2 <= k -> ~ first_at_1 adj c)
    | Raise x => x = EStopIteration
        /\ (full = true -> forall d, clique n adj d -> length d = k -> 1 <= k -> (2 <= k -> ~ first_at_1 adj d) -> In d l)
    end).
Proof. exact two_next. Qed.
Print Assumptions C34_two_loops_partial.

Theorem C34_returned_partial : forall p n adj lr full st q k en l,
  made p n adj -> has_edge adj -> storage_live p -> loops n adj lr full p st q -> In (mkL k en l) st ->
  NoDup l /\ forall d, In d l -> clique n adj d /\ length d = k /\ (2 <= k -> ~ first_at_1 adj d).
Proof. exact nest_items. Qed.
Print Assumptions C34_returned_partial.

(** With no upper bound below the size of a clique, the loops do not disturb each other: what an iterator returns is what it
    would return if it were alone on the freshly loaded graph, in the same order. *)
Theorem C34_undisturbed_partial : forall p n adj, made p n adj -> storage_live p -> forall lr st q k en l,
  has_edge adj -> loops n adj lr true p (mkL k en l :: st) q -> roomleft n adj st ->
  ends_with (next_clique lr q en) (fun r => match snd r with
    | Ret c => exists q' en' rest, forall fuel, length (l ++ c :: rest) < fuel -> drain fuel lr p (new_enum k) = Ok (q', en', l ++ c :: rest)
    | Raise x => x = EStopIteration /\ exists q' en', forall fuel, length l < fuel -> drain fuel lr p (new_enum k) = Ok (q', en', l)
    end).
Proof. exact nest_whole. Qed.
Print Assumptions C34_undisturbed_partial.

Example C34_example : exists q, loops 8 (adj_rows sample_rows) true true sample [inner; outer] q
  /\ roomleft 8 (adj_rows sample_rows) [outer] /\ inner = mkL 2 (it_en inner) [[2; 3]; [2; 4]].
Proof. eexists. split; [exact inner_loop|]. split; [exact outer_fit|]. reflexivity. Qed.
