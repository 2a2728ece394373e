(** P_AlignIter: AlignGraph.all_correspondences, with the lengths the iterator keeps (C95). *)
From Verif Require Import Base BaseFacts MBits MUtils MGraph MHeur MStack MRec MEnum MApi MExt MGen MCorr MAlign MKabsch MAlignGraph MCorrIter MAlignIter Spec SpecDec SpecGen SpecCorr SpecAlign SpecKabsch Samples ExtSamples GenSamples KabschSamples SearchProps AlignProps AlignAll AlignSamples AlignIter.
From Coq Require Import QArith Qcanon Sorting.Sorted.
Local Open Scope nat_scope.

(** As C95_listed_partial, where the same is missing, for the iterator that the wrapper constructs. *)
Theorem C95_iterator_partial : forall (F : ofield) val S1 S2 d1 d2 eps srt ctl m pct, sorts_dists srt -> table_fits (mkM (length S2) d2 true) ->
  ctl <> [] -> (forall k l, d1 k l = d1 l k) -> (forall k l, d2 k l = d2 l k) ->
  forall q, align_build F val srt new_pygraph S1 S2 d1 d2 eps ctl m pct = Ok (Ret q) -> edges_fit q -> storage_live q ->
  forall arccos svd lr k it, 2 <= k -> align_iter q S1 S2 k = Ret it ->
  exists q' en' l out, (forall fuel, length out < fuel -> align_list F fuel arccos svd S1 S2 lr q it = Ok (q', en', Ret out))
    /\ Forall2 (described F svd S1 S2) l out /\ NoDup l
    /\ (forall a b, In (a, b) l -> matching (length S1) (length S2) a b /\ near_matches d1 (mkM (length S2) d2 true) eps a b
          /\ aligned (row F val S1) (row F val S2) ctl m pct a b /\ length a = k /\ StronglySorted lt a)
    /\ (forall a b, matching (length S1) (length S2) a b -> close_matches d1 d2 eps a b ->
          well_aligned (row F val S1) (row F val S2) ctl m pct a b -> length a = k -> StronglySorted lt a ->
          ~ first_match_first q (length S2) a b -> In (a, b) l).
Proof. exact align_iter_all. Qed.
Print Assumptions C95_iterator_partial.

Example C95_iterator_example :
  align_build qc this pd_sort new_pygraph moved_q corners_q (sqd moved_corners) (sqd corners) 1 [(1, 1)%Q] (canvas 8 8) (1 # 2) = Ok (Ret tri)
  /\ table_fits (mkM 3 (sqd corners) true) /\ edges_fit tri /\ storage_live tri
  /\ align_iter tri moved_q corners_q 2 = Ret (mkCI (new_enum 2) 3 3)
  /\ exists p en l, iter_list 50 true tri (mkCI (new_enum 2) 3 3) = Ok (p, en, Ret l) /\ length l = 11 /\ In ([1; 2], [1; 2]) l.
Proof.
  split; [exact tri_eq|]. split; [vm_compute; reflexivity|]. split; [vm_compute; reflexivity|]. split; [apply liveb_sound; vm_compute; reflexivity|].
  split; [vm_compute; reflexivity|exact tri_pairs].
Qed.
