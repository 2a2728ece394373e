(** P_Enum: all_cliques (C11, C16, C28-C32, C35). The counterexamples of C30, C32-C34 are in P_Refute. [drain fuel] iterates
    to StopIteration, [nexts i] takes the first [i] cliques; [lr] is the evaluation order of the two load_memory calls. *)
From Verif Require Import Base MBits MUtils MGraph MHeur MStack MRec MEnum MApi Spec SpecDec SearchProps Samples OrderFacts EnumCalls.
From Coq Require Import Sorting.Sorted Sorting.Permutation.
Local Open Scope nat_scope.

(** * C11 (all_cliques; get_max_clique is in P_Search) *)
Theorem C11_enumeration_memory_safe : forall p n adj, made p n adj -> storage_live p -> forall q lr k,
  has_edge adj -> history p q -> exists en0 q' en l, all_cliques q k = Ret en0
    /\ (forall fuel, length l < fuel -> drain fuel lr q en0 = Ok (q', en, l)) /\ released q'.
Proof. exact all_cliques_ends. Qed.
Print Assumptions C11_enumeration_memory_safe.

Example C11_enumeration_example : history sample sample3 /\ sample3 <> sample
  /\ exists q en, drain 100 true sample3 (new_enum 3) = Ok (q, en, sample_all 3) /\ length (sample_all 3) = 2 /\ released q.
Proof.
  split; [exact sample_history|]. split; [vm_compute; discriminate|].
  destruct (C11_enumeration_memory_safe _ _ _ sample_made sample_live sample3 true 3 sample_edge sample_history) as (en0 & q & en & l & A & D & R).
  apply all_cliques_new in A. subst en0. assert (E : l = sample_all 3). { specialize (D (100 + S (length l)) ltac:(lia)). revert D. 
    unfold sample_all. destruct (drain 100 true sample3 (new_enum 3)) as [[[q1 en1] l1]| |] eqn:E1.
    - intros D. rewrite (EnumApi.drain_mono _ _ _ _ _ _ E1 (Nat.le_add_r _ _)) in D. congruence.
    - exfalso. vm_compute in E1. discriminate.
    - exfalso. vm_compute in E1. discriminate. }
  subst l. assert (L : length (sample_all 3) = 2) by (vm_compute; reflexivity).
  exists q, en. split; [apply D; rewrite L; repeat constructor|auto].
Qed.

(** * C16 (all_cliques; get_max_clique is in P_Search): every step of an iterator returns *)
Theorem C16_enumeration_terminates : forall p n adj, made p n adj -> storage_live p -> forall q lr k i,
  has_edge adj -> history p q -> exists en0 q' en l, all_cliques q k = Ret en0 /\ nexts i lr q en0 = Ok (q', en, l).
Proof. exact all_cliques_steps. Qed.
Print Assumptions C16_enumeration_terminates.

Example C16_enumeration_example : exists q en, nexts 1 false sample3 (new_enum 3) = Ok (q, en, [[2; 3; 4]]).
Proof. do 2 eexists. vm_compute. reflexivity. Qed.

(** * C28 *)
Theorem C28_only_cliques : forall p n adj, made p n adj -> storage_live p -> forall q lr k i en0 q' en l c,
  has_edge adj -> history p q -> all_cliques q k = Ret en0 -> nexts i lr q en0 = Ok (q', en, l) -> In c l ->
  StronglySorted lt c /\ (forall v, In v c -> 1 <= v <= n) /\ (forall u v, In u c -> In v c -> u <> v -> adj u v) /\ length c = k.
Proof. exact all_cliques_only. Qed.
Print Assumptions C28_only_cliques.

(** On a freshly loaded graph no edge is needed. *)
Theorem C28_fresh_graph : forall p n adj, made p n adj -> storage_live p -> forall lr k i, 1 <= n ->
  exists en0 q' en l, all_cliques p k = Ret en0 /\ nexts i lr p en0 = Ok (q', en, l) /\ forall c, In c l -> clique n adj c /\ length c = k.
Proof. exact all_cliques_fresh. Qed.
Print Assumptions C28_fresh_graph.

Example C28_example : exists q en, all_cliques sample3 2 = Ret (new_enum 2) /\ nexts 4 true sample3 (new_enum 2) = Ok (q, en, [[2; 3]; [2; 4]; [3; 4]; [4; 5]]).
Proof. do 2 eexists. split; [reflexivity|]. vm_compute. reflexivity. Qed.

(** * C29 *)
Theorem C29_no_repeats : forall p n adj, made p n adj -> storage_live p -> forall q lr k fuel q' en l,
  has_edge adj -> history p q -> drain fuel lr q (new_enum k) = Ok (q', en, l) -> NoDup l.
Proof. exact enumerated_once. Qed.
Print Assumptions C29_no_repeats.

Theorem C29_fresh_graph : forall p n adj, made p n adj -> storage_live p -> forall lr k fuel q' en l,
  drain fuel lr p (new_enum k) = Ok (q', en, l) -> NoDup l.
Proof. exact fresh_enumerated_once. Qed.
Print Assumptions C29_fresh_graph.

Example C29_example : exists q en,
  drain 100 true sample3 (new_enum 2) = Ok (q, en, [[2; 3]; [2; 4]; [3; 4]; [4; 5]; [5; 6]; [6; 7]; [5; 7]]).
Proof. do 2 eexists. vm_compute. reflexivity. Qed.

(** * C30. Missing: the cliques containing vertex 1 none of whose vertices has a smaller degree than vertex 1
    (C30_complete_refuted). All others are yielded. *)
Theorem C30_complete_partial : forall p n adj, made p n adj -> storage_live p -> forall lr k, 1 <= n -> 2 <= k ->
  exists en0 q' en l, all_cliques p k = Ret en0 /\ (forall fuel, length l < fuel -> drain fuel lr p en0 = Ok (q', en, l))
    /\ forall c, In c l <-> clique n adj c /\ length c = k /\ ~ first_at_1 adj c.
Proof. exact all_cliques_exactly. Qed.
Print Assumptions C30_complete_partial.

Example C30_example : exists q en l, drain 100 true sample (new_enum 3) = Ok (q, en, l) /\ l = [[2; 3; 4]; [5; 6; 7]].
Proof. do 3 eexists. split; [vm_compute; reflexivity|reflexivity]. Qed.

(** * C31 *)
Theorem C31_trivial_sizes : forall p n adj, made p n adj -> storage_live p -> forall lr, 1 <= n -> exists a0 a1 q0 en0 q1 en1,
  all_cliques p 0 = Ret a0 /\ all_cliques p 1 = Ret a1 /\ (forall fuel, 0 < fuel -> drain fuel lr p a0 = Ok (q0, en0, []))
  /\ (forall fuel, n < fuel -> drain fuel lr p a1 = Ok (q1, en1, map (fun v => [v]) (seq 1 n))).
Proof. exact all_cliques_small. Qed.
Print Assumptions C31_trivial_sizes.

Theorem C31_after_any_history : forall p n adj, made p n adj -> storage_live p -> forall q lr, has_edge adj -> history p q ->
  exists a0 a1 q0 en0 q1 en1,
  all_cliques q 0 = Ret a0 /\ all_cliques q 1 = Ret a1 /\ (forall fuel, 0 < fuel -> drain fuel lr q a0 = Ok (q0, en0, []))
  /\ (forall fuel, n < fuel -> drain fuel lr q a1 = Ok (q1, en1, map (fun v => [v]) (seq 1 n))).
Proof. exact all_cliques_small_history. Qed.
Print Assumptions C31_after_any_history.

Example C31_example : exists q en, drain 9 true sample3 (new_enum 1) = Ok (q, en, [[1]; [2]; [3]; [4]; [5]; [6]; [7]; [8]]).
Proof. do 2 eexists. vm_compute. reflexivity. Qed.

(** * C32. Missing: after an earlier search the enumeration overwrites its result (C32_enumerate_then_search_refuted).
    Proved: when get_max_clique has not been called before, or after reset_search (C21_reset_partial). *)
Theorem C32_enumerate_first_partial : forall p n adj lr k fuel q en l e lb ub heur cont,
  made p n adj -> has_edge adj -> storage_live p -> drain fuel lr p (new_enum k) = Ok (q, en, l) ->
  permutes e -> never_late e -> (exists d, clique n adj d /\ lb < length d) -> (forall d, clique n adj d -> length d <= ub) ->
  ends_with (get_max_clique e q lb ub heur true cont) (fun r => exists c, snd r = Ret c /\ maximum_clique n adj c).
Proof. exact enumerate_max. Qed.
Print Assumptions C32_enumerate_first_partial.

Example C32_example : exists q en l, drain 100 true sample (new_enum 2) = Ok (q, en, l)
  /\ answer (get_max_clique (run_env None) q 1 DEFAULT_UB true true false) = Ok (Ret [1; 2; 3; 4]).
Proof. do 3 eexists. split; [vm_compute; reflexivity|vm_compute; reflexivity]. Qed.

(** * C35 *)
Theorem C35_search_then_enumerate : forall p n adj, made p n adj -> storage_live p -> forall e heur cont lr lr' k,
  has_edge adj -> permutes e -> untimed e -> (Z.of_nat n <= 65535)%Z ->
  exists q r, get_max_clique e p 1 DEFAULT_UB heur true cont = Ok (q, r) /\ exists q1 en1 q2 en2 l,
    (forall fuel, length l < fuel -> drain fuel lr p (new_enum k) = Ok (q1, en1, l))
    /\ (forall fuel, length l < fuel -> drain fuel lr' q (new_enum k) = Ok (q2, en2, l)).
Proof. exact default_same_sequence. Qed.
Print Assumptions C35_search_then_enumerate.

(** More generally after any sequence of calls that no clock or upper bound cuts short. *)
Theorem C35_after_unhurried_calls : forall p n adj, made p n adj -> storage_live p -> forall q lr lr' k,
  has_edge adj -> unhurried n adj p q -> exists q1 en1 q2 en2 l,
    (forall fuel, length l < fuel -> drain fuel lr p (new_enum k) = Ok (q1, en1, l))
    /\ (forall fuel, length l < fuel -> drain fuel lr' q (new_enum k) = Ok (q2, en2, l)).
Proof. exact same_sequence. Qed.
Print Assumptions C35_after_unhurried_calls.

Example C35_example : exists q r q1 en1 l1 q2 en2, get_max_clique (run_env None) sample 1 DEFAULT_UB true true false = Ok (q, r)
  /\ drain 100 true sample (new_enum 2) = Ok (q1, en1, l1) /\ drain 100 true q (new_enum 2) = Ok (q2, en2, l1) /\ length l1 = 7.
Proof. do 7 eexists. split; [vm_compute; reflexivity|]. split; [vm_compute; reflexivity|]. split; [vm_compute; reflexivity|reflexivity]. Qed.
