(** P_CorrIter: all_correspondences with return_indices=True (C90). *)
From Verif Require Import Base MBits MUtils MGraph MHeur MStack MRec MEnum MApi MExt MGen MCorr MCorrIter Spec SpecDec SpecGen SpecCorr SearchProps Samples ExtFacts ExtProps ExtSamples GenSamples CorrFacts CorrIter MNW MNWEnum MNWApi MNWCorr SpecNW SpecKeep SpecRound NWRoundFacts NWProps NWSamples KeepProps KeepSamples.
From Coq Require Import Sorting.Sorted.
Local Open Scope nat_scope.

(** From the metrics and the condition to the indices: the iterator decodes with the lengths it was given by the wrapper.
    Missing: as for C90_complete_partial. *)
Theorem C90_indices_partial : forall E1 E2 (S1 : gset E1) (S2 : gset E2) d1 d2 sym1 sym2 eps srt, sorts_dists srt ->
  d1 <> None \/ d2 = None ->
  forall f1 f2, wanted S1 d1 = Some f1 -> wanted S2 d2 = Some f2 -> table_fits (wanted_set S2 d2 sym2 f2) ->
  (forall k l, f1 k l = f1 l k) -> (forall k l, f2 k l = f2 l k) ->
  forall g f lr k it, gen_build_with_condition srt (gen_init S1 S2 d1 d2 sym1 sym2 eps) f false = Ok (Ret g) ->
  edges_fit (gg_graph g) -> storage_live (gg_graph g) -> 2 <= k -> gen_iter g k = Ret it ->
  exists q' en' l, (forall fuel, length l < fuel -> iter_list fuel lr (gg_graph g) it = Ok (q', en', Ret l)) /\ NoDup l
    /\ (forall a b, In (a, b) l -> matching (length (gs_elems S1)) (length (gs_elems S2)) a b
          /\ near_matches f1 (wanted_set S2 d2 sym2 f2) eps a b /\ passed (declared d1 sym1) f a b /\ length a = k /\ StronglySorted lt a)
    /\ (forall a b, matching (length (gs_elems S1)) (length (gs_elems S2)) a b -> close_matches f1 f2 eps a b ->
          allowed (declared d1 sym1) f a b -> length a = k -> StronglySorted lt a ->
          ~ first_match_first (gg_graph g) (length (gs_elems S2)) a b -> In (a, b) l).
Proof. exact @indices_listed. Qed.
Print Assumptions C90_indices_partial.

(** Three elements and four. *)
Example C90_indices_example : gen_build_with_condition pd_sort gline0 no1 false = Ok (Ret gcond) /\ edges_fit (gg_graph gcond)
  /\ storage_live (gg_graph gcond) /\ exists it, gen_iter gcond 2 = Ret it
  /\ exists q en, iter_list 50 true (gg_graph gcond) it = Ok (q, en, Ret [([0; 1], [2; 3]); ([0; 1], [3; 2])]).
Proof.
  split; [exact gcond_eq|]. split; [vm_compute; reflexivity|]. split; [apply liveb_sound; vm_compute; reflexivity|].
  eexists. split; [vm_compute; reflexivity|]. do 2 eexists. vm_compute. reflexivity.
Qed.

(** With return_indices=False: the elements at these indices. Missing: as above. *)
Theorem C90_iterator_elements_partial : forall E1 E2 (S1 : gset E1) (S2 : gset E2) d1 d2 sym1 sym2 eps srt, sorts_dists srt ->
  d1 <> None \/ d2 = None ->
  forall f1 f2, wanted S1 d1 = Some f1 -> wanted S2 d2 = Some f2 -> table_fits (wanted_set S2 d2 sym2 f2) ->
  (forall k l, f1 k l = f1 l k) -> (forall k l, f2 k l = f2 l k) ->
  forall g f lr k it, gen_build_with_condition srt (gen_init S1 S2 d1 d2 sym1 sym2 eps) f false = Ok (Ret g) ->
  edges_fit (gg_graph g) -> storage_live (gg_graph g) -> 2 <= k -> gen_iter g k = Ret it ->
  exists g' en' l out, (forall fuel, length out < fuel -> wrapped_list fuel lr g it = Ok (g', en', Ret out))
    /\ Forall2 (fun ab xy => elements_at (gs_elems S1) (fst ab) (fst xy) /\ elements_at (gs_elems S2) (snd ab) (snd xy)) l out
    /\ NoDup l
    /\ (forall a b, In (a, b) l -> matching (length (gs_elems S1)) (length (gs_elems S2)) a b
          /\ near_matches f1 (wanted_set S2 d2 sym2 f2) eps a b /\ passed (declared d1 sym1) f a b /\ length a = k /\ StronglySorted lt a)
    /\ (forall a b, matching (length (gs_elems S1)) (length (gs_elems S2)) a b -> close_matches f1 f2 eps a b ->
          allowed (declared d1 sym1) f a b -> length a = k -> StronglySorted lt a ->
          ~ first_match_first (gg_graph g) (length (gs_elems S2)) a b -> In (a, b) l).
Proof. exact @iter_elements_listed. Qed.
Print Assumptions C90_iterator_elements_partial.

Example C90_iterator_elements_example : gen_build_with_condition pd_sort gline0 no1 false = Ok (Ret gcond) /\ edges_fit (gg_graph gcond)
  /\ storage_live (gg_graph gcond) /\ exists it, gen_iter gcond 2 = Ret it
  /\ exists g en, wrapped_list 50 true gcond it = Ok (g, en, Ret [([100; 101], [9; 10]); ([100; 101], [10; 9])]).
Proof.
  split; [exact gcond_eq|]. split; [vm_compute; reflexivity|]. split; [apply liveb_sound; vm_compute; reflexivity|].
  eexists. split; [vm_compute; reflexivity|]. do 2 eexists. vm_compute. reflexivity.
Qed.

(** NWGraph: the iterator decodes with the second of the lengths it was constructed with. *)
Theorem C61_iterator : forall rnd p n adj w, nmade rnd p n adj w -> has_edge adj -> nstorage_live p -> forall q e T lr n1 n2, nhistory rnd p q -> 1 <= n2 ->
  exists it q' en' cs l, make_nw_iter e q n1 n2 T = Ret it
    /\ (forall fuel, length cs < fuel -> nw_iter_list rnd fuel lr q it = Ok (q', en', Ret cs))
    /\ NoDup l /\ Forall2 (decodes n2) l cs /\ forall d, In d l -> clique n adj d /\ 2 <= length d /\ (sums_exact rnd w -> T <= weight w d)%Z.
Proof. exact nw_iter_listed. Qed.
Print Assumptions C61_iterator.

Example C61_iterator_example : nmade half_even wmatch 6 (adj_rows wmatch_rows) wwts /\ has_edge (adj_rows wmatch_rows) /\ nstorage_live wmatch
  /\ exists it, make_nw_iter nw_env wmatch 2 3 7 = Ret it
  /\ exists q en, nw_iter_list half_even 9 true wmatch it = Ok (q, en, Ret [([0; 1], [2; 1]); ([0; 1], [0; 1]); ([0; 1], [0; 2])]).
Proof.
  split; [apply wmatch_example|]. split; [apply wmatch_example|]. split; [apply wmatch_example|].
  eexists. split; [vm_compute; reflexivity|]. do 2 eexists. vm_compute. reflexivity.
Qed.
