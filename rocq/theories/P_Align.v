(** P_Align: AlignGraph from the points to the correspondence returned (C94). *)
From Verif Require Import Base BaseFacts MBits MUtils MGraph MHeur MStack MRec MEnum MApi MExt MGen MAlign MKabsch MAlignGraph Spec SpecDec SpecGen SpecAlign SpecKabsch Samples ExtSamples GenSamples KabschSamples SearchProps AlignProps AlignSamples.
From Coq Require Import QArith Qcanon.
Local Open Scope nat_scope.

(** * C94. Full claim: build_edges_with_filter and get_correspondence return a largest matching at distances within epsilon such that,
    for any two matches, the similarity that sends the points of S2 to those of S1 keeps the fraction [pct] of the control points in the
    mask. What holds: the distances are within epsilon or next to the interval (C44), the control points are only counted rightly if
    they land at coordinates a u64 can hold (C66), and no matching closer than epsilon all of whose similarities do that is larger. *)
Theorem C94_indices_partial : forall (F : ofield) val S1 S2 d1 d2 eps srt ctl m pct, sorts_dists srt -> table_fits (mkM (length S2) d2 true) ->
  ctl <> [] -> (forall k l, d1 k l = d1 l k) -> (forall k l, d2 k l = d2 l k) ->
  forall q, align_build F val srt new_pygraph S1 S2 d1 d2 eps ctl m pct = Ok (Ret q) -> edges_fit q -> storage_live q ->
  (exists u v, neighbour q u v) ->
  forall arccos svd e ub heur cont, permutes e -> never_late e -> length S1 <= ub \/ length S2 <= ub ->
  ends_with (align_get F arccos svd e q S1 S2 1 ub heur true cont true) (fun r => exists a b, snd r = Ret (inl (a, b))
    /\ matching (length S1) (length S2) a b /\ near_matches d1 (mkM (length S2) d2 true) eps a b
    /\ aligned (row F val S1) (row F val S2) ctl m pct a b
    /\ forall a' b', matching (length S1) (length S2) a' b' -> close_matches d1 d2 eps a' b' ->
         well_aligned (row F val S1) (row F val S2) ctl m pct a' b' -> length a' <= length a).
Proof. exact align_max. Qed.
Print Assumptions C94_indices_partial.

(** With return_indices=False, after any earlier searches and with any bounds: the matched points, and a rotation. *)
(** Missing: that the rotation is the best one (C74). *)
Theorem C94_dictionary_partial : forall (F : ofield) val S1 S2 d1 d2 eps srt ctl m pct, sorts_dists srt -> table_fits (mkM (length S2) d2 true) ->
  ctl <> [] -> (forall k l, d1 k l = d1 l k) -> (forall k l, d2 k l = d2 l k) ->
  forall q, align_build F val srt new_pygraph S1 S2 d1 d2 eps ctl m pct = Ok (Ret q) -> edges_fit q -> storage_live q ->
  (exists u v, neighbour q u v) ->
  forall arccos svd e lb ub heur dfs cont h, history q h -> lawful e lb -> 1 <= lb ->
  ends_with (align_get F arccos svd e h S1 S2 lb ub heur dfs cont false) (fun r =>
    match snd r with
    | Ret (inr (A, B, d)) => exists a b th R t, d = Some (th, R, t) /\ elements_at S1 a A /\ elements_at S2 b B /\ lb <= length A
        /\ matching (length S1) (length S2) a b /\ near_matches d1 (mkM (length S2) d2 true) eps a b
        /\ aligned (row F val S1) (row F val S2) ctl m pct a b
        /\ (forall X u s vh, covariance F A B X -> svd X = (u, s, vh) -> is_svd F X (u, s, vh) -> rotation F R)
    | Ret (inl _) => False
    | Raise x => x = EBounds
    end).
Proof. exact align_any. Qed.
Print Assumptions C94_dictionary_partial.

Example C94_example :
  align_build qc this pd_sort new_pygraph moved_q corners_q (sqd moved_corners) (sqd corners) 1 [(1, 1)%Q] (canvas 8 8) (1 # 2) = Ok (Ret tri)
  /\ table_fits (mkM 3 (sqd corners) true) /\ edges_fit tri /\ storage_live tri /\ neighbour tri (vid 3 0 0) (vid 3 1 1)
  /\ permutes (run_env None) /\ never_late (run_env None) /\ lawful (run_env None) 1 /\ history tri tri
  /\ (exists p, align_get qc (fun _ => None) svd_good (run_env None) tri moved_q corners_q 1 DEFAULT_UB true true false true
        = Ok (p, Ret (inl ([0; 1; 2], [0; 1; 2]))))
  /\ (exists p d, align_get qc (fun _ => None) svd_good (run_env None) tri moved_q corners_q 1 DEFAULT_UB true true false false
        = Ok (p, Ret (inr (moved_q, corners_q, Some d))))
  /\ matching 3 3 [0; 1; 2] [0; 1; 2] /\ close_matches (sqd moved_corners) (sqd corners) 1 [0; 1; 2] [0; 1; 2]
  /\ well_aligned (row qc this moved_q) (row qc this corners_q) [(1, 1)%Q] (canvas 8 8) (1 # 2) [0; 1; 2] [0; 1; 2].
Proof.
  split; [exact tri_eq|]. split; [vm_compute; reflexivity|]. split; [vm_compute; reflexivity|]. split; [apply liveb_sound; vm_compute; reflexivity|].
  split; [apply neighbourb_iff; vm_compute; reflexivity|]. split; [apply run_env_sorts|]. split; [apply untimed_never_late; reflexivity|].
  split; [apply run_lawful; auto|]. split; [constructor|]. split; [eexists; vm_compute; reflexivity|]. split; [do 2 eexists; vm_compute; reflexivity|].
  split; [split; [reflexivity|]; split; [repeat constructor; cbn; lia|]; split; [repeat constructor; cbn; lia|]; split; intros i; cbn; lia|].
  split; [|exact tri_aligned]. intros k l K L N. cbn [length] in K, L.
  do 3 (destruct k as [|k]; [do 3 (destruct l as [|l]; [first [congruence|vm_compute; reflexivity]|]); lia|]). lia.
Qed.
