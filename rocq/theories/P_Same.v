(** P_Same: what earlier calls do to the sequence of all_cliques (C71, and C35 for searches cut short). *)
From Verif Require Import Base MUtils MGraph MEnum MApi MNW MNWEnum MNWApi Spec SpecDec SpecNW SpecOrder NWSame Samples SpecRound NWRoundFacts NWSamples SameSamples.
Local Open Scope nat_scope.

(** * C35: searches with bounds and time limits only take cliques away *)
Theorem C35_after_any_calls : forall p n adj, made p n adj -> storage_live p -> forall q lr lr' k, has_edge adj -> history p q ->
  exists q1 en1 l q2 en2 l', (forall fuel, length l < fuel -> drain fuel lr p (new_enum k) = Ok (q1, en1, l))
    /\ (forall fuel, length l' < fuel -> drain fuel lr' q (new_enum k) = Ok (q2, en2, l')) /\ subseq l' l.
Proof. exact later_subseq. Qed.
Print Assumptions C35_after_any_calls.

Example C35_after_any_calls_example : made sample 8 (adj_rows sample_rows) /\ storage_live sample /\ has_edge (adj_rows sample_rows)
  /\ history sample sample3.
Proof. split; [exact sample_made|]. split; [exact sample_live|]. split; [exact sample_edge|exact sample_history]. Qed.

(** * C71. Missing: upper bounds that exclude a clique and negative weights, for which it is false. *)
Theorem C71_same_sequence_partial : forall rnd p n adj w, nmade rnd p n adj w -> has_edge adj -> nstorage_live p -> sums_exact rnd w -> rises rnd -> nonnegative w ->
  forall q e e' T lr lr', nunhurried rnd n adj w p q -> exists en1 q1 en1' en2 q2 en2' l,
    nw_all_cliques e p T = Ret en1 /\ (forall fuel, length l < fuel -> nw_drain rnd fuel lr p en1 = Ok (q1, en1', l))
    /\ nw_all_cliques e' q T = Ret en2 /\ (forall fuel, length l < fuel -> nw_drain rnd fuel lr' q en2 = Ok (q2, en2', l)).
Proof. exact nw_same_sequence. Qed.
Print Assumptions C71_same_sequence_partial.

(** Upper bounds only take cliques away. *)
Theorem C71_subsequence_partial : forall rnd p n adj w, nmade rnd p n adj w -> has_edge adj -> nstorage_live p -> sums_exact rnd w -> rises rnd -> nonnegative w ->
  forall q e e' T lr lr', nhistory rnd p q -> exists en1 q1 en1' l en2 q2 en2' l',
    nw_all_cliques e p T = Ret en1 /\ (forall fuel, length l < fuel -> nw_drain rnd fuel lr p en1 = Ok (q1, en1', l))
    /\ nw_all_cliques e' q T = Ret en2 /\ (forall fuel, length l' < fuel -> nw_drain rnd fuel lr' q en2 = Ok (q2, en2', l')) /\ subseq l' l.
Proof. exact nw_later_subseq. Qed.
Print Assumptions C71_subsequence_partial.

(** After a search with an upper bound a heavy clique is no longer listed, and not after reset_search either. *)
Theorem C71_bound_refuted : exists p n adj w e ub T q r en1 q1 en1' l en2 q2 en2' q3 en3 q4 en4,
  nmade half_even p n adj w /\ has_edge adj /\ nstorage_live p /\ sums_exact half_even w /\ nonnegative w /\ nw_get_max_clique half_even e p 0 ub false true = Ok (q, r)
  /\ nw_all_cliques e p T = Ret en1 /\ nw_drain half_even 7 true p en1 = Ok (q1, en1', l) /\ l <> []
  /\ nw_all_cliques e q T = Ret en2 /\ nw_drain half_even 7 true q en2 = Ok (q2, en2', [])
  /\ nw_reset_search q = Ok q3 /\ nw_all_cliques e q3 T = Ret en3 /\ nw_drain half_even 7 true q3 en3 = Ok (q4, en4, []).
Proof.
  exists fan, 10, (adj_rows frows), fwts, nw_env, 12%Z, 20%Z, fan12, (Ret [2; 3; 4]), (wen fan 20), (wafter fan 20), (snd (fst (wout fan 20))), [[2; 5; 6]].
  do 3 eexists. exists fan_reset. do 3 eexists. split; [exact fan_made|]. split; [exact fan_edge|]. split; [exact fan_live|]. split; [exact fwts_exact|]. split; [exact fwts_nonneg|].
  split; [exact fan12_eq|]. split; [exact (proj1 fan_20)|]. split; [exact (proj2 fan_20)|]. split; [discriminate|]. split; [exact (proj1 fan12_20)|].
  split; [exact (proj2 fan12_20)|]. split; [exact fan_reset_eq|exact fan_reset_20].
Qed.
Print Assumptions C71_bound_refuted.

(** The same for an upper bound above the weight of all cliques, when a vertex has a negative weight. *)
Theorem C71_negative_refuted : exists p n adj w e ub T q r en1 q1 en1' l en2 q2 en2',
  nmade half_even p n adj w /\ has_edge adj /\ nstorage_live p /\ sums_exact half_even w /\ (forall d, clique n adj d -> weight w d < ub)%Z
  /\ nw_get_max_clique half_even e p 0 ub false true = Ok (q, r)
  /\ nw_all_cliques e p T = Ret en1 /\ nw_drain half_even 7 true p en1 = Ok (q1, en1', l) /\ l <> []
  /\ nw_all_cliques e q T = Ret en2 /\ nw_drain half_even 7 true q en2 = Ok (q2, en2', []).
Proof.
  exists dip, 6, (adj_rows trows), twts, nw_env, 100%Z, 14%Z, dipped, (Ret [2; 3; 4]), (wen dip 14), (wafter dip 14), (snd (fst (wout dip 14))), [[2; 3]].
  do 3 eexists. split; [exact dip_made|]. split; [exact dip_edge|]. split; [exact dip_live|]. split; [exact twts_exact|]. split; [exact dip_100|].
  split; [exact dipped_eq|]. split; [exact (proj1 dip_14)|]. split; [exact (proj2 dip_14)|]. split; [discriminate|exact dipped_14].
Qed.
Print Assumptions C71_negative_refuted.

Example C71_example : nmade half_even wsample 6 (adj_rows wrows) wwts /\ has_edge (adj_rows wrows) /\ nstorage_live wsample /\ sums_exact half_even wwts /\ rises half_even /\ nonnegative wwts
  /\ nunhurried half_even 6 (adj_rows wrows) wwts wsample wfound
  /\ nw_drain half_even 7 true wsample (wen wsample 8) = Ok (wafter wsample 8, snd (fst (wout wsample 8)), [[4; 5]; [5; 6]])
  /\ exists q en, nw_drain half_even 7 true wfound (wen wfound 8) = Ok (q, en, [[4; 5]; [5; 6]]).
Proof.
  split; [exact wsample_made|]. split; [exact wsample_edge|]. split; [exact wsample_live|]. split; [exact wwts_exact|]. split; [exact half_even_rises|]. split; [exact wwts_nonneg|].
  split; [eapply nu_get; [apply nu_start|exact nw_env_permutes|exact wwts_100|exact wfound_eq]|]. split; [exact wsample_8|].
  do 2 eexists. vm_compute. reflexivity.
Qed.

(** Two of six are lost. *)
Example C71_subsequence_example : nmade half_even fan 10 (adj_rows frows) fwts /\ has_edge (adj_rows frows) /\ nstorage_live fan /\ sums_exact half_even fwts /\ rises half_even /\ nonnegative fwts
  /\ nhistory half_even fan fan12 /\ nw_drain half_even 7 true fan (wen fan 14) = Ok (wafter fan 14, snd (fst (wout fan 14)), [[2; 5]; [2; 6]; [3; 7]; [4; 8]; [5; 9]; [6; 10]])
  /\ nw_drain half_even 7 true fan12 (wen fan12 14) = Ok (wafter fan12 14, snd (fst (wout fan12 14)), [[3; 7]; [4; 8]; [5; 9]; [6; 10]]).
Proof.
  split; [exact fan_made|]. split; [exact fan_edge|]. split; [exact fan_live|]. split; [exact fwts_exact|]. split; [exact half_even_rises|]. split; [exact fwts_nonneg|].
  split; [eapply nh_get; [apply nh_start|exact nw_env_permutes|exact fan12_eq]|]. split; [apply fan_14|apply fan12_14].
Qed.
