(** P_Kabsch (C74): AlignGraph.get_correspondence(return_indices=False) returns a rotation matrix and a translation that send the matched
    points of S1 to their partners in S2. *)
From Verif Require Import Base MGen MKabsch SpecGen SpecKabsch KabschProps KabschSamples.
Local Open Scope nat_scope.

(** The points returned are those at the positions found, and the call does not fail. *)
Theorem C74_points : forall (F : ofield) svd S1 S2 a b, length a = length b -> a <> [] ->
  (forall i, In i a -> i < length S1) -> (forall i, In i b -> i < length S2) ->
  exists A B R t, align_format F svd S1 S2 (a, b) = Ret (A, B, Some (R, t)) /\ elements_at S1 a A /\ elements_at S2 b B.
Proof. exact align_points. Qed.
Print Assumptions C74_points.

(** The matrix is a rotation, for every valid singular value decomposition. *)
Theorem C74_rotation : forall (F : ofield) svd S1 S2 a b A B R t X u vh s, length a = length b ->
  align_format F svd S1 S2 (a, b) = Ret (A, B, Some (R, t)) ->
  covariance F A B X -> svd X = (u, s, vh) -> is_svd F X (u, s, vh) -> rotation F R.
Proof. exact result_rotation. Qed.
Print Assumptions C74_rotation.

(** The centroid c of the points of S1 is sent to the centroid d of their partners. *)
Theorem C74_centroid : forall (F : ofield) svd S1 S2 a b A B R t X u vh s, length a = length b ->
  align_format F svd S1 S2 (a, b) = Ret (A, B, Some (R, t)) ->
  covariance F A B X -> svd X = (u, s, vh) -> is_svd F X (u, s, vh) ->
  forall c d : vec F,
  fmul F (over F (fun _ => f1 F) A) (fst c) = over F fst A -> fmul F (over F (fun _ => f1 F) A) (snd c) = over F snd A ->
  fmul F (over F (fun _ => f1 F) B) (fst d) = over F fst B -> fmul F (over F (fun _ => f1 F) B) (snd d) = over F snd B ->
  moved F R t c = d.
Proof. exact result_centroid. Qed.
Print Assumptions C74_centroid.

(** Full claim: no rotation and translation fit better, whichever valid decomposition svd returns. What holds: none does if the third
    factor of the decomposition is symmetric. *)
Theorem C74_best_partial : forall (F : ofield) svd S1 S2 a b A B R t X u vh s, length a = length b ->
  align_format F svd S1 S2 (a, b) = Ret (A, B, Some (R, t)) ->
  covariance F A B X -> svd X = (u, s, vh) -> is_svd F X (u, s, vh) ->
  is_symmetric F vh -> forall R' t', rotation F R' -> fle F (misfit F R t A B) (misfit F R' t' A B).
Proof. exact result_best. Qed.
Print Assumptions C74_best_partial.

(** If the partners are rotated and shifted copies: the points are sent to their partners exactly if the third factor is symmetric, or
    all matched points of S1 are the same. *)
Theorem C74_exact : forall (F : ofield) svd S1 S2 a b A B R t X u vh s, length a = length b ->
  align_format F svd S1 S2 (a, b) = Ret (A, B, Some (R, t)) ->
  covariance F A B X -> svd X = (u, s, vh) -> is_svd F X (u, s, vh) ->
  forall R0 t0, rotation F R0 -> fits F R0 t0 A B -> (fits F R t A B <-> is_symmetric F vh \/ all_equal F A).
Proof. exact result_exact. Qed.
Print Assumptions C74_exact.

(** False in general: four points matched with themselves, and a valid decomposition with which they are not sent to themselves. *)
Theorem C74_refuted : exists (F : ofield) svd S1 A B R t X u s vh,
  align_format F svd S1 S1 ([0; 1; 2; 3], [0; 1; 2; 3]) = Ret (A, B, Some (R, t)) /\ A = S1 /\ B = S1
  /\ covariance F A B X /\ svd X = (u, s, vh) /\ is_svd F X (u, s, vh) /\ ~ fits F R t A B.
Proof. exact self_refuted. Qed.
Print Assumptions C74_refuted.

(** Rational points meeting the hypotheses, with a decomposition of either kind. *)
Example C74_example :
  align_format qc svd_good cross crossed ([0; 1; 2; 3], [0; 1; 2; 3])
  = Ret (cross, crossed, Some (kabsch qc svd_good cross crossed))
  /\ rotation qc turn /\ fits qc turn (int 10, int 20) cross crossed
  /\ covariance qc cross crossed cross_X /\ is_svd qc cross_X (svd_good cross_X) /\ is_symmetric qc (snd (svd_good cross_X))
  /\ is_svd qc cross_X (svd_bad cross_X) /\ ~ is_symmetric qc (snd (svd_bad cross_X)) /\ ~ all_equal qc cross.
Proof. exact good_example. Qed.
