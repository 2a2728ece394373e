(** P_Cont: searches spread over several calls with continue_search=True (C22, C23, C67). The counterexamples of C22 and C23
    are in P_Refute. *)
From Verif Require Import Base MUtils MGraph MApi Spec SpecDec SpecCont SearchProps Samples ContFacts ContSamples.
Local Open Scope nat_scope.

(** * C22. Missing: calls interrupted inside the search of a root, and at the last vertex. When search_done is True after
    [k] calls that ran out of time, every clique larger than the answer is opened by one of at most [k] vertices, or by
    vertex n. *)
Theorem C22_continued_partial : forall p n adj k q c,
  made p n adj -> has_edge adj -> storage_live p -> continued n adj p k q c -> p_done q = true ->
  clique n adj c /\ exists missed, length missed <= k /\ forall d, clique n adj d -> length c < length d ->
    exists v, opens adj d v /\ (In v missed \/ v = n /\ 0 < k).
Proof. exact continued_missed. Qed.
Print Assumptions C22_continued_partial.

(** Missing: interrupted calls (C22_interrupted_refuted). *)
Theorem C22_on_time_partial : forall p n adj q c,
  made p n adj -> has_edge adj -> storage_live p -> continued n adj p 0 q c -> p_done q = true /\ maximum_clique n adj c.
Proof. exact continued_on_time. Qed.
Print Assumptions C22_on_time_partial.

Example C22_example : exists q, continued 7 (adj_rows csample_rows) csample 2 q [2; 4] /\ p_done q = true
  /\ made csample 7 (adj_rows csample_rows) /\ has_edge (adj_rows csample_rows) /\ storage_live csample
  /\ exists q0, continued 7 (adj_rows csample_rows) csample 0 q0 [1; 4; 7].
Proof.
  exists (csample2 8). split; [exact csample_twice|]. split; [vm_compute; reflexivity|]. split; [exact csample_made|].
  split; [exact csample_edge|]. split; [exact csample_live|]. eexists. exact csample_zero.
Qed.

(** * C23. Missing: vertex n, and one vertex for each call that ran out of time. *)
Theorem C23_searched_partial : forall p n adj k q c,
  made p n adj -> has_edge adj -> storage_live p -> continued n adj p k q c -> p_done q = true ->
  exists missed, length missed <= k /\ forall v, (v < n \/ k = 0) -> ~ In v missed ->
    forall d, clique n adj d -> opens adj d v -> length d <= length c.
Proof. exact continued_searched. Qed.
Print Assumptions C23_searched_partial.

Example C23_example : exists q, continued 7 (adj_rows csample_rows) csample 1 q [1; 4; 7] /\ p_done q = true.
Proof. eexists. split; [exact csample_once|]. vm_compute. reflexivity. Qed.

(** * C67: a call may leave everything as it was, so the loop "until search_done" need not end: the search of the root of
    the best clique is begun again in every call. *)
Theorem C67_progress_refuted : exists rows n p e q c, sorts e /\ steady e /\ from_edgelist rows n = Ok (Ret p) /\ storage_live p
  /\ get_max_clique e p 1 DEFAULT_UB true true true = Ok (q, Ret c)
  /\ get_max_clique e q 1 DEFAULT_UB true true true = Ok (q, Ret c)
  /\ p_done q = false /\ ~ maximum_clique n (adj_rows rows) c.
Proof. exact stuck. Qed.
Print Assumptions C67_progress_refuted.

(** Missing: strict progress when the time runs out. *)
Theorem C67_monotone_partial : forall p n adj k q c,
  made p n adj -> has_edge adj -> storage_live p -> continued n adj p k q c ->
  forall e ub heur, permutes e -> steady e -> (forall d, clique n adj d -> length d <= ub) ->
  ends_with (get_max_clique e q 1 ub heur true true) (fun r => exists c', snd r = Ret c' /\ clique n adj c' /\ length c <= length c'
     /\ p_cur q <= p_cur (fst r) /\ (never_late e -> p_done (fst r) = true)).
Proof. exact continued_call. Qed.
Print Assumptions C67_monotone_partial.

Example C67_example : p_cur (csample1 8) = 3 /\ exists q, get_max_clique (run_env (Some (fun _ => false))) (csample1 8) 1 9 false true true
  = Ok (q, Ret [1; 4; 7]) /\ p_cur q = 8 /\ p_done q = true.
Proof. split; [vm_compute; reflexivity|]. eexists. split; [vm_compute; reflexivity|]. split; vm_compute; reflexivity. Qed.
