(** P_Order: the order of all_cliques (C68). *)
From Verif Require Import Base MUtils MGraph MEnum MApi MNW MNWEnum MNWApi Spec SpecDec SpecNW SpecOrder OrderFacts Samples SpecRound NWRoundFacts NWSamples.
From Coq Require Import Sorting.Sorted.
Local Open Scope nat_scope.

(** * C68: one iterator, advanced any number of times *)
Theorem C68_order : forall p n adj, made p n adj -> storage_live p -> forall q lr k i q' en l,
  has_edge adj -> history p q -> nexts i lr q (new_enum k) = Ok (q', en, l) -> StronglySorted (listed_before adj) l.
Proof. exact listed_in_order. Qed.
Print Assumptions C68_order.

(** On a freshly loaded graph no edge is needed. *)
Theorem C68_fresh_graph : forall p n adj, made p n adj -> storage_live p -> forall lr k i q' en l,
  nexts i lr p (new_enum k) = Ok (q', en, l) -> StronglySorted (listed_before adj) l.
Proof. exact fresh_in_order. Qed.
Print Assumptions C68_fresh_graph.

(** Of two different cliques exactly one comes before the other. *)
Theorem C68_decides : forall p n adj, made p n adj -> storage_live p -> forall d d', clique n adj d -> clique n adj d' ->
  d <> [] -> d' <> [] -> d <> d' ->
  (listed_before adj d d' /\ ~ listed_before adj d' d) \/ (listed_before adj d' d /\ ~ listed_before adj d d').
Proof. exact order_total. Qed.
Print Assumptions C68_decides.

Example C68_example : exists q en, nexts 9 true sample3 (new_enum 2) = Ok (q, en, [[2; 3]; [2; 4]; [3; 4]; [4; 5]; [5; 6]; [6; 7]; [5; 7]])
  /\ listed_before (adj_rows sample_rows) [6; 7] [5; 7].
Proof.
  do 2 eexists. assert (E : exists q en, nexts 9 true sample3 (new_enum 2) = Ok (q, en, [[2; 3]; [2; 4]; [3; 4]; [4; 5]; [5; 6]; [6; 7]; [5; 7]]))
    by (do 2 eexists; vm_compute; reflexivity).
  split; [vm_compute; reflexivity|]. destruct E as (q & en & E).
  pose proof (C68_order _ _ _ sample_made sample_live sample3 true 2 9 q en _ sample_edge sample_history E) as S.
  do 5 (apply StronglySorted_inv in S; destruct S as [S _]). apply StronglySorted_inv in S. destruct S as [_ F].
  inversion F; auto.
Qed.

(** The same for NWGraph. *)
Theorem C68_weighted : forall rnd p n adj w, nmade rnd p n adj w -> has_edge adj -> nstorage_live p -> forall q e T lr, nhistory rnd p q ->
  exists en q' en' l, nw_all_cliques e q T = Ret en
    /\ (forall fuel, length l < fuel -> nw_drain rnd fuel lr q en = Ok (q', en', l)) /\ (sums_exact rnd w -> StronglySorted (nw_listed_before n adj w T) l).
Proof. exact nw_listed_in_order. Qed.
Print Assumptions C68_weighted.

Example C68_weighted_example : nw_listed_before 6 (adj_rows wrows) wwts 3 [5; 6] [4; 6]
  /\ exists en q en', nw_all_cliques nw_env wsample 3 = Ret en
  /\ nw_drain half_even 7 true wsample en = Ok (q, en', [[2; 3; 4]; [4; 5]; [5; 6]; [4; 6]]).
Proof.
  split; [|exists (wen wsample 3), (wafter wsample 3), (snd (fst (wout wsample 3))); split; [exact (wsample_all 3)|exact wsample_3]].
  destruct (C68_weighted _ _ _ _ _ wsample_made wsample_edge wsample_live wsample nw_env 3%Z true (nh_start _ _)) as (en & q & en' & l & E1 & E2 & SO).
  assert (EN : en = wen wsample 3) by (pose proof (wsample_all 3); congruence). subst en.
  pose proof (f_equal snd (NWEnumApi.nw_drain_unique _ _ _ _ _ _ _ _ _ wsample_3 E2)) as EL. cbn [snd] in EL. specialize (SO wwts_exact). rewrite <- EL in SO.
  do 2 (apply StronglySorted_inv in SO; destruct SO as [SO _]). apply StronglySorted_inv in SO. destruct SO as [_ F]. inversion F; auto.
Qed.
