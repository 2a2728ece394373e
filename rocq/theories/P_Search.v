(** P_Search: get_max_clique and reset_search (C11, C12, C14-C21, C24, C26, C27). The counterexamples of C19 and C21-C23
    are in P_Refute. *)
From Verif Require Import Base MBits MUtils MGraph MHeur MStack MRec MEnum MApi Spec SpecDec SearchProps Samples.
Local Open Scope nat_scope.

(** * C11 (get_max_clique; all_cliques is in P_Enum) *)
Theorem C11_search_memory_safe : forall p n adj q e lb ub heur dfs cont,
  made p n adj -> has_edge adj -> storage_live p -> history p q -> lawful e lb ->
  ends_with (get_max_clique e q lb ub heur dfs cont) (fun r => released (fst r)).
Proof. exact search_safe. Qed.
Print Assumptions C11_search_memory_safe.

Example C11_example : made sample 8 (adj_rows sample_rows) /\ has_edge (adj_rows sample_rows) /\ storage_live sample
  /\ history sample sample3 /\ sample3 <> sample /\ lawful late 0
  /\ released (after (get_max_clique late sample3 0 4 true true true)).
Proof.
  split; [exact sample_made|]. split; [exact sample_edge|]. split; [exact sample_live|]. split; [exact sample_history|].
  split; [vm_compute; discriminate|]. split; [apply late_lawful|].
  destruct (ends_ok _ _ (C11_search_memory_safe _ _ _ _ late 0 4 true true true sample_made sample_edge sample_live sample_history (late_lawful 0))) as (r & -> & R).
  destruct r. exact R.
Qed.

(** * C12: the search of an edgeless graph reads outside the bitset storage, whatever the arguments. *)
Theorem C12_edgeless_refuted : exists n p, from_edgelist [] n = Ok (Ret p) /\ storage_live p
  /\ forall e, get_max_clique e p 1 DEFAULT_UB true true false = UB OobRead.
Proof. exact edgeless_refuted. Qed.
Print Assumptions C12_edgeless_refuted.

Theorem C12_edgeless_undefined : forall p n adj e lb ub heur dfs cont,
  made p n adj -> 1 <= n -> (forall u v, ~ adj u v) -> heur = true \/ dfs = true ->
  get_max_clique e p lb ub heur dfs cont = UB OobRead.
Proof. exact edgeless_search. Qed.
Print Assumptions C12_edgeless_undefined.

Example C12_example : exists p, from_matrix 3 3 (fun i j => i =? j) = Ok (Ret p)
  /\ get_max_clique (run_env None) p 1 DEFAULT_UB false true false = UB OobRead.
Proof. eexists. split; [vm_compute; reflexivity|vm_compute; reflexivity]. Qed.

(** * C14 *)
Theorem C14_answers_are_cliques : forall p n adj q e lb ub heur dfs cont q' c,
  made p n adj -> has_edge adj -> storage_live p -> history p q -> lawful e lb ->
  get_max_clique e q lb ub heur dfs cont = Ok (q', Ret c) ->
  StronglySorted lt c /\ (forall v, In v c -> 1 <= v <= n) /\ (forall u v, In u c -> In v c -> u <> v -> adj u v)
  /\ lb <= length c.
Proof. exact answers_are_cliques. Qed.
Print Assumptions C14_answers_are_cliques.

Example C14_example : exists q, get_max_clique late sample3 1 4 true true true = Ok (q, Ret [1; 2; 3; 4]).
Proof. eexists. vm_compute. reflexivity. Qed.

(** * C15 *)
Theorem C15_maximum : forall p n adj e ub heur cont,
  made p n adj -> has_edge adj -> storage_live p -> permutes e -> untimed e -> (forall d, clique n adj d -> length d <= ub) ->
  ends_with (get_max_clique e p 1 ub heur true cont) (fun r => exists c, snd r = Ret c /\ maximum_clique n adj c).
Proof. exact untimed_max. Qed.
Print Assumptions C15_maximum.

Theorem C15_default_bounds : forall p n adj e heur cont,
  made p n adj -> has_edge adj -> storage_live p -> permutes e -> untimed e -> (Z.of_nat n <= 65535)%Z ->
  ends_with (get_max_clique e p 1 DEFAULT_UB heur true cont) (fun r => exists c, snd r = Ret c /\ maximum_clique n adj c).
Proof. exact default_max. Qed.
Print Assumptions C15_default_bounds.

Example C15_example : answer (get_max_clique (run_env None) sample 1 DEFAULT_UB true true false) = Ok (Ret [1; 2; 3; 4])
  /\ permutes (run_env None) /\ untimed (run_env None).
Proof. split; [vm_compute; reflexivity|]. split; [apply run_env_sorts|reflexivity]. Qed.

(** * C16 (get_max_clique; all_cliques is in P_Enum): the fuel of the model never runs out *)
Theorem C16_search_terminates : forall p n adj q e lb ub heur dfs cont,
  made p n adj -> has_edge adj -> storage_live p -> history p q -> lawful e lb ->
  exists r, get_max_clique e q lb ub heur dfs cont = Ok r.
Proof. exact search_terminates. Qed.
Print Assumptions C16_search_terminates.

Example C16_example : exists q, get_max_clique late sample3 5 8 true true false = Ok (q, Raise EBounds).
Proof. eexists. vm_compute. reflexivity. Qed.

(** * C17: [e] is the timed run, [e'] the untimed one *)
Theorem C17_timed_as_good : forall p n adj e e' lb ub heur cont,
  made p n adj -> has_edge adj -> storage_live p -> permutes e -> permutes e' -> never_late e -> untimed e' ->
  (forall d, clique n adj d -> length d <= ub) ->
  ends_with (get_max_clique e p lb ub heur true cont) (fun r => p_done (fst r) = true /\
    ends_with (get_max_clique e' p lb ub heur true cont) (fun r' => p_done (fst r') = true /\
      match snd r, snd r' with
      | Ret c, Ret c' => clique n adj c /\ clique n adj c' /\ length c = length c'
      | Raise x, Raise x' => x = x'
      | _, _ => False
      end)).
Proof. exact timed_as_good. Qed.
Print Assumptions C17_timed_as_good.

Example C17_example : never_late (run_env (Some (fun _ => false)))
  /\ exists q, get_max_clique (run_env (Some (fun _ => false))) sample 2 DEFAULT_UB false true true = Ok (q, Ret [1; 2; 3; 4])
     /\ p_done q = true.
Proof. split; [intros k; reflexivity|]. eexists. split; [vm_compute; reflexivity|vm_compute; reflexivity]. Qed.

(** * C18 *)
Theorem C18_lower_bound : forall p n adj e lb ub heur cont,
  made p n adj -> has_edge adj -> storage_live p -> permutes e -> never_late e -> (forall d, clique n adj d -> length d <= ub) ->
  ends_with (get_max_clique e p lb ub heur true cont) (fun r => p_done (fst r) = true /\
    ((exists c, snd r = Ret c /\ maximum_clique n adj c /\ lb < length c)
     \/ snd r = Raise EBounds /\ forall d, clique n adj d -> length d <= lb)).
Proof. exact (fun p n adj e lb ub heur cont M HE LV => fresh_max p n adj M HE LV e lb ub heur cont). Qed.
Print Assumptions C18_lower_bound.

Example C18_example : answer (get_max_clique (run_env None) sample 3 DEFAULT_UB true true false) = Ok (Ret [1; 2; 3; 4])
  /\ answer (get_max_clique (run_env None) sample 4 DEFAULT_UB true true false) = Ok (Raise EBounds).
Proof. split; vm_compute; reflexivity. Qed.

(** * C19. Missing: the answer may have more than [ub] vertices (C19_upper_bound_refuted). *)
Theorem C19_upper_bound_partial : forall p n adj e lb ub heur cont,
  made p n adj -> has_edge adj -> storage_live p -> permutes e -> never_late e ->
  ends_with (get_max_clique e p lb ub heur true cont) (fun r =>
    match snd r with
    | Ret c => clique n adj c /\ forall d, clique n adj d -> Nat.min ub (length d) <= length c
    | Raise x => x = EBounds /\ forall d, clique n adj d -> Nat.min ub (length d) <= lb
    end).
Proof. exact (fun p n adj e lb ub heur cont M HE LV => fresh_upper p n adj M HE LV e lb ub heur cont). Qed.
Print Assumptions C19_upper_bound_partial.

Example C19_example : answer (get_max_clique (run_env None) sample 1 3 false true false) = Ok (Ret [1; 2; 3; 4])
  /\ answer (get_max_clique (run_env None) sample 3 3 true true false) = Ok (Raise EBounds).
Proof. split; vm_compute; reflexivity. Qed.

(** * C20 *)
Theorem C20_repeat_same_size : forall p n adj q e e' lb ub heur dfs cont q1 c1,
  made p n adj -> has_edge adj -> storage_live p -> history p q ->
  permutes e -> untimed e -> untimed e' -> srt_fun e' = srt_fun e ->
  get_max_clique e q lb ub heur dfs cont = Ok (q1, Ret c1) ->
  ends_with (get_max_clique e' q1 lb ub heur dfs cont)
    (fun r => exists c2, snd r = Ret c2 /\ clique n adj c2 /\ length c2 = length c1).
Proof. exact repeat_same. Qed.
Print Assumptions C20_repeat_same_size.

Example C20_example : exists q1 q2, get_max_clique (run_env None) sample3 1 2 true true false = Ok (q1, Ret [1; 2; 3; 4])
  /\ get_max_clique (run_env None) q1 1 2 true true false = Ok (q2, Ret [1; 2; 3; 4]).
Proof. do 2 eexists. split; [vm_compute; reflexivity|vm_compute; reflexivity]. Qed.

(** * C21. Missing: earlier calls with a binding upper bound (C21_reset_refuted). *)
Theorem C21_reset_partial : forall p n adj q q' e lb ub heur cont,
  made p n adj -> has_edge adj -> storage_live p -> unhurried n adj p q -> reset_search q = Ok q' ->
  permutes e -> never_late e -> (exists d, clique n adj d /\ lb < length d) -> (forall d, clique n adj d -> length d <= ub) ->
  ends_with (get_max_clique e q' lb ub heur true cont) (fun r => exists c, snd r = Ret c /\ maximum_clique n adj c).
Proof. exact reset_max. Qed.
Print Assumptions C21_reset_partial.

Example C21_example : exists q, unhurried 8 (adj_rows sample_rows) sample q /\ q <> sample /\ exists q', reset_search q = Ok q'.
Proof. exact sample_unhurried. Qed.

(** * C24: with the default lower bound a vertex is returned. *)
Theorem C24_no_search_refuted : exists rows n p e c, sorts e /\ from_edgelist rows n = Ok (Ret p) /\ storage_live p
  /\ answer (get_max_clique e p 1 DEFAULT_UB false false false) = Ok (Ret c).
Proof. exact no_search_refuted. Qed.
Print Assumptions C24_no_search_refuted.

(** Missing: lower_bound 0 and 1. *)
Theorem C24_no_search_partial : forall p n adj e lb ub cont,
  made p n adj -> has_edge adj -> storage_live p -> permutes e -> 2 <= lb ->
  ends_with (get_max_clique e p lb ub false false cont) (fun r => snd r = Raise EBounds).
Proof. exact no_search. Qed.
Print Assumptions C24_no_search_partial.

Example C24_example : answer (get_max_clique (run_env None) sample 2 5 false false false) = Ok (Raise EBounds).
Proof. vm_compute. reflexivity. Qed.

(** * C26 *)
Theorem C26_heuristic_alone_sound : forall p n adj e lb ub cont,
  made p n adj -> has_edge adj -> storage_live p -> lawful e lb ->
  ends_with (get_max_clique e p lb ub true false cont) (fun r =>
    match snd r with
    | Ret c => clique n adj c /\ lb <= length c /\ (2 <= lb -> lb < length c)
    | Raise x => x = EBounds
    end).
Proof. exact heuristic_sound. Qed.
Print Assumptions C26_heuristic_alone_sound.

(** Running the heuristic first does not change the size of the result; [e] and [e'] may sort differently.
    Missing: an upper bound below the size of some clique. *)
Theorem C26_heuristic_neutral_partial : forall p n adj e e' lb ub cont,
  made p n adj -> has_edge adj -> storage_live p -> permutes e -> permutes e' -> never_late e -> never_late e' ->
  (forall d, clique n adj d -> length d <= ub) ->
  ends_with (get_max_clique e p lb ub true true cont) (fun r =>
    ends_with (get_max_clique e' p lb ub false true cont) (fun r' =>
      match snd r, snd r' with
      | Ret c, Ret c' => clique n adj c /\ clique n adj c' /\ length c = length c'
      | Raise x, Raise x' => x = x'
      | _, _ => False
      end)).
Proof. exact heuristic_neutral. Qed.
Print Assumptions C26_heuristic_neutral_partial.

Theorem C26_binding_bound_refuted : exists rows n p e c c', sorts e /\ from_edgelist rows n = Ok (Ret p) /\ storage_live p
  /\ answer (get_max_clique e p 1 2 true true false) = Ok (Ret c)
  /\ answer (get_max_clique e p 1 2 false true false) = Ok (Ret c')
  /\ length c <> length c'.
Proof. exact heuristic_binding. Qed.
Print Assumptions C26_binding_bound_refuted.

Example C26_example : answer (get_max_clique (run_env None) sample 2 DEFAULT_UB true false false) = Ok (Ret [5; 6; 7])
  \/ answer (get_max_clique (run_env None) sample 2 DEFAULT_UB true false false) = Ok (Ret [1; 2; 3; 4]).
Proof. right. vm_compute. reflexivity. Qed.

(** * C27 *)
(** Missing: reset_search and the vertex queries, which dereference null (refuted below). *)
Theorem C27_unloaded_partial : forall e lb ub heur dfs cont k,
  answer (get_max_clique e new_pygraph lb ub heur dfs cont) = Ok (Raise ENotLoaded)
  /\ to_edgelist new_pygraph = Ok (Raise ENotLoaded) /\ to_matrix new_pygraph = Ok (Raise ENotLoaded)
  /\ to_adjlist new_pygraph = Ok (Raise ENotLoaded) /\ all_cliques new_pygraph k = Raise ENotLoaded.
Proof. exact unloaded_raises. Qed.
Print Assumptions C27_unloaded_partial.

Theorem C27_reset_unloaded_refuted : reset_search new_pygraph = UB NullDeref /\ vertex_neighbors new_pygraph 0 = UB NullDeref.
Proof. exact unloaded_reset. Qed.
Print Assumptions C27_reset_unloaded_refuted.
