(** P_Theta (C78): the angle theta that AlignGraph.get_correspondence(return_indices=False) returns next to the matrix and the translation. *)
From Verif Require Import Base MGen MKabsch SpecGen SpecKabsch SpecTheta KabschProps KabschSamples ThetaProps ThetaSamples.
Local Open Scope nat_scope.

(** The matrix is the one of theta, in the form used in tests/test_align.py: cosine and minus sine in the first row. *)
Theorem C78_matrix : forall (F : ofield) cos sin arccos svd S1 S2 a b A B th R t X u vh s, length a = length b ->
  align_dict F arccos svd S1 S2 (a, b) = Ret (A, B, Some (th, R, t)) ->
  covariance F A B X -> svd X = (u, s, vh) -> is_svd F X (u, s, vh) ->
  cos_sin F cos sin -> arc_of F cos sin arccos -> arccos (m00 R) <> None ->
  m00 R = cos th /\ m01 R = fopp F (sin th) /\ m10 R = sin th /\ m11 R = cos th.
Proof. exact dict_matrix. Qed.
Print Assumptions C78_matrix.

(** As the points are rows, this matrix turns them by minus theta. *)
Theorem C78_direction : forall (F : ofield) cos sin arccos svd S1 S2 a b A B th R t X u vh s, length a = length b ->
  align_dict F arccos svd S1 S2 (a, b) = Ret (A, B, Some (th, R, t)) ->
  covariance F A B X -> svd X = (u, s, vh) -> is_svd F X (u, s, vh) ->
  cos_sin F cos sin -> arc_of F cos sin arccos -> arccos (m00 R) <> None ->
  forall p, moved F R t p = turned F cos sin (fopp F th) t p.
Proof. exact dict_direction. Qed.
Print Assumptions C78_direction.

(** Turning a point by theta and shifting it gives what the matrix gives only if theta is a multiple of half a turn, or the point the origin. *)
Theorem C78_exact : forall (F : ofield) cos sin arccos svd S1 S2 a b A B th R t X u vh s, length a = length b ->
  align_dict F arccos svd S1 S2 (a, b) = Ret (A, B, Some (th, R, t)) ->
  covariance F A B X -> svd X = (u, s, vh) -> is_svd F X (u, s, vh) ->
  cos_sin F cos sin -> arc_of F cos sin arccos -> arccos (m00 R) <> None ->
  forall p, (moved F R t p = turned F cos sin th t p <-> sin th = f0 F \/ p = (f0 F, f0 F)).
Proof. exact dict_other. Qed.
Print Assumptions C78_exact.

(** False: theta, dx and dy send S1 to S2. Here the matrix and the translation do, theta and the translation do not. *)
Theorem C78_refuted : exists (F : ofield) cos sin arccos svd S1 S2 A B th R t X u s vh,
  cos_sin F cos sin /\ arc_of F cos sin arccos /\ arccos (m00 R) <> None
  /\ align_dict F arccos svd S1 S2 ([0; 1; 2; 3], [0; 1; 2; 3]) = Ret (A, B, Some (th, R, t))
  /\ covariance F A B X /\ svd X = (u, s, vh) /\ is_svd F X (u, s, vh)
  /\ fits F R t A B /\ B <> map (turned F cos sin th t) A.
Proof. exact theta_refuted. Qed.
Print Assumptions C78_refuted.

(** A matrix as near as one likes to the half turn, with an entry below -1 as rounding can produce it, gets the angle 0. *)
Theorem C78_half_turn : forall (F : ofield) arccos, (forall x t, arccos x = Some t -> fle F (fopp F (f1 F)) x) ->
  forall d, fle F (f0 F) d -> d <> f0 F ->
  exists R : mat F, near F d (m00 R) (fopp F (f1 F)) /\ m01 R = f0 F /\ m10 R = f0 F /\ near F d (m11 R) (fopp F (f1 F))
    /\ theta_of F arccos R = f0 F.
Proof. exact theta_nan. Qed.
Print Assumptions C78_half_turn.

(** The hypotheses hold for the points of C74, the rational parametrisation of the circle and a function inverting the cosine at 3/5. *)
Example C78_example :
  align_dict qc arc svd_good cross crossed ([0; 1; 2; 3], [0; 1; 2; 3])
  = Ret (cross, crossed, Some (num (-1) 2, fst (kabsch qc svd_good cross crossed), snd (kabsch qc svd_good cross crossed)))
  /\ cos_sin qc half_cos half_sin /\ arc_of qc half_cos half_sin arc /\ half_sin (num (-1) 2) = num (-4) 5
  /\ covariance qc cross crossed cross_X /\ is_svd qc cross_X (svd_good cross_X)
  /\ (forall x t, arc x = Some t -> fle qc (fopp qc (f1 qc)) x).
Proof.
  split; [exact cross_dict|]. split; [exact half_ok|]. split; [exact arc_ok|]. split; [qc_eq|].
  split; [exact cross_cov|]. split; [exact svd_good_ok|].
  intros x t. unfold arc. destruct (Qcanon.Qc_eq_dec x (num 3 5)) as [->|]; [|discriminate]. intros _. qc_le.
Qed.
