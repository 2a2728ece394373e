(** P_AlignAll: AlignGraph.all_correspondences (C95). *)
From Verif Require Import Base BaseFacts MBits MUtils MGraph MHeur MStack MRec MEnum MApi MExt MGen MCorr MAlign MKabsch MAlignGraph Spec SpecDec SpecGen SpecCorr SpecAlign SpecKabsch Samples ExtSamples GenSamples KabschSamples SearchProps AlignProps AlignAll AlignSamples.
From Coq Require Import QArith Qcanon Sorting.Sorted.
Local Open Scope nat_scope.

(** * C95. Full claim: list(all_correspondences(k, return_indices=False)) contains, once each, the alignments of k matches whose
    distances agree within epsilon and whose similarities keep the fraction [pct] of the control points in the mask.

    False: a triangle and its image under a quarter turn. get_correspondence finds that alignment of three points, the list of
    all alignments of three points has another one in it, but not this. *)
Theorem C95_missing_refuted : exists (S1 S2 : list (vec qc)) d1 d2 eps srt ctl m pct q arccos svd en p p' en' A B d,
  sorts_dists srt /\ (forall k l, d1 k l = d1 l k) /\ (forall k l, d2 k l = d2 l k)
  /\ align_build qc this srt new_pygraph S1 S2 d1 d2 eps ctl m pct = Ok (Ret q) /\ edges_fit q /\ storage_live q
  /\ matching 3 3 [0; 1; 2] [0; 1; 2] /\ close_matches d1 d2 eps [0; 1; 2] [0; 1; 2]
  /\ well_aligned (row qc this S1) (row qc this S2) ctl m pct [0; 1; 2] [0; 1; 2]
  /\ align_get qc arccos svd (run_env None) q S1 S2 1 DEFAULT_UB true true false true = Ok (p, Ret (inl ([0; 1; 2], [0; 1; 2])))
  /\ all_correspondences q 3 3 3 = Ret en
  /\ align_drain qc 50 arccos svd S1 S2 true q en = Ok (p', en', Ret [(A, B, d)])
  /\ elements_at S1 [0; 1; 2] A /\ elements_at S2 [2; 1; 0] B /\ ~ elements_at S2 [0; 1; 2] B.
Proof. exact tri_missing. Qed.
Print Assumptions C95_missing_refuted.

(** What holds: nothing else is listed (up to the exceptions of C94), nothing twice, and of what should be listed only alignments
    containing the match of the first points can be missing, and only if it is compatible with no more matches than the others. *)
Theorem C95_listed_partial : forall (F : ofield) val S1 S2 d1 d2 eps srt ctl m pct, sorts_dists srt -> table_fits (mkM (length S2) d2 true) ->
  ctl <> [] -> (forall k l, d1 k l = d1 l k) -> (forall k l, d2 k l = d2 l k) ->
  forall q, align_build F val srt new_pygraph S1 S2 d1 d2 eps ctl m pct = Ok (Ret q) -> edges_fit q -> storage_live q ->
  forall arccos svd lr k en, 2 <= k -> all_correspondences q (length S1) (length S2) k = Ret en ->
  exists q' en' l out, (forall fuel, length out < fuel -> align_drain F fuel arccos svd S1 S2 lr q en = Ok (q', en', Ret out))
    /\ Forall2 (described F svd S1 S2) l out /\ NoDup l
    /\ (forall a b, In (a, b) l -> matching (length S1) (length S2) a b /\ near_matches d1 (mkM (length S2) d2 true) eps a b
          /\ aligned (row F val S1) (row F val S2) ctl m pct a b /\ length a = k /\ StronglySorted lt a)
    /\ (forall a b, matching (length S1) (length S2) a b -> close_matches d1 d2 eps a b ->
          well_aligned (row F val S1) (row F val S2) ctl m pct a b -> length a = k -> StronglySorted lt a ->
          ~ first_match_first q (length S2) a b -> In (a, b) l).
Proof. exact align_all. Qed.
Print Assumptions C95_listed_partial.

Example C95_example :
  align_build qc this pd_sort new_pygraph moved_q corners_q (sqd moved_corners) (sqd corners) 1 [(1, 1)%Q] (canvas 8 8) (1 # 2) = Ok (Ret tri)
  /\ table_fits (mkM 3 (sqd corners) true) /\ edges_fit tri /\ storage_live tri /\ all_correspondences tri 3 3 2 = Ret (new_enum 2)
  /\ matching 3 3 [1; 2] [1; 2] /\ close_matches (sqd moved_corners) (sqd corners) 1 [1; 2] [1; 2]
  /\ well_aligned (row qc this moved_q) (row qc this corners_q) [(1, 1)%Q] (canvas 8 8) (1 # 2) [1; 2] [1; 2]
  /\ ~ first_match_first tri 3 [1; 2] [1; 2]
  /\ exists p en l, corr_drain 50 true 3 tri (new_enum 2) = Ok (p, en, Ret l) /\ length l = 11 /\ In ([1; 2], [1; 2]) l.
Proof.
  split; [exact tri_eq|]. split; [vm_compute; reflexivity|]. split; [vm_compute; reflexivity|]. split; [apply liveb_sound; vm_compute; reflexivity|].
  split; [vm_compute; reflexivity|].
  split; [split; [reflexivity|]; split; [repeat constructor; cbn; lia|]; split; [repeat constructor; cbn; lia|]; split; intros i; cbn; lia|].
  split; [|split; [exact pair_aligned|split; [intros ((k & K & Z & _) & _); destruct k as [|[|k]]; cbn in K, Z; lia|exact tri_pairs]]].
  intros k l K L N. cbn [length] in K, L.
  do 2 (destruct k as [|k]; [do 2 (destruct l as [|l]; [first [congruence|vm_compute; reflexivity]|]); lia|]). lia.
Qed.
