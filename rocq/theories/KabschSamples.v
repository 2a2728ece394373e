(** KabschSamples: the canonical rationals as numbers, and two sets of four points. Tests, not claims. *)
From Verif Require Import Base MGen MKabsch SpecGen SpecKabsch KabschFacts KabschProps.
From Coq Require Import QArith Qcanon.
Local Open Scope nat_scope.

Definition qc_leb (x y : Qc) : bool := Qle_bool x y.

Lemma qc_leb_le : forall x y : Qc, qc_leb x y = true <-> Qcle x y.
Proof. intros x y. apply Qle_bool_iff. Qed.

Lemma qc_total : forall x y : Qc, Qcle x y \/ Qcle y x.
Proof. intros x y. destruct (Qclt_le_dec x y) as [H|H]; [left; apply Qclt_le_weak, H|right; exact H]. Qed.

Lemma qc_add : forall x y z : Qc, Qcle x y -> Qcle (x + z)%Qc (y + z)%Qc.
Proof. intros x y z H. apply Qcplus_le_compat; [exact H|apply Qcle_refl]. Qed.

Lemma qc_mul : forall x y : Qc, Qcle 0%Qc x -> Qcle 0%Qc y -> Qcle 0%Qc (x * y)%Qc.
Proof.
  intros x y Hx Hy. pose proof (Qcmult_le_compat_r _ _ _ Hx Hy) as H. rewrite Qcmult_0_l in H. exact H.
Qed.

Definition qc : ofield :=
  mkOF Qc 0%Qc 1%Qc Qcplus Qcmult Qcminus Qcopp Qcdiv Qcinv Qcle qc_leb Qcft Qcle_trans Qcle_antisym qc_total qc_add qc_mul qc_leb_le.

Definition num (n : Z) (d : positive) : qc := Q2Qc (n # d).
Definition int (n : Z) : qc := num n 1.

(** Four points, and their images under a rotation and a translation *)
Definition cross : list (vec qc) := [(int 2, int 0); (int (-2), int 0); (int 0, int 1); (int 0, int (-1))].
Definition turn : mat qc := mkMat (num 3 5) (num 4 5) (num (-4) 5) (num 3 5).
Definition crossed : list (vec qc) := map (moved qc turn (int 10, int 20)) cross.

(** The covariance, and two decompositions of it *)
Definition cross_X : mat qc := mkMat (num 24 5) (num 32 5) (num (-8) 5) (num 6 5).
Definition flip : mat qc := mkMat (num 3 5) (num 4 5) (num 4 5) (num (-3) 5).
Definition svd_good (_ : mat qc) : mat qc * (qc * qc) * mat qc := (mkMat (int 1) (int 0) (int 0) (int (-1)), (int 8, int 2), flip).
Definition svd_bad (_ : mat qc) : mat qc * (qc * qc) * mat qc := (mkMat (int 1) (int 0) (int 0) (int 1), (int 8, int 2), turn).

Ltac qc_eq := apply Qc_is_canon; vm_compute; reflexivity.
Ltac qc_le := apply qc_leb_le; vm_compute; reflexivity.

Lemma cross_cov : covariance qc cross crossed cross_X.
Proof. unfold covariance, cov. repeat split; qc_eq. Qed.

Lemma svd_good_ok : is_svd qc cross_X (svd_good cross_X).
Proof. unfold is_svd, svd_good, orthogonal. repeat split; try qc_eq; qc_le. Qed.

Lemma svd_bad_ok : is_svd qc cross_X (svd_bad cross_X).
Proof. unfold is_svd, svd_bad, orthogonal. repeat split; try qc_eq; qc_le. Qed.

Lemma turn_rotation : rotation qc turn.
Proof. unfold rotation, orthogonal. repeat split; qc_eq. Qed.

(** A set matched with itself *)
Definition four : list (vec qc) := [(int 6, int 8); (int (-6), int (-8)); (int (-4), int 3); (int 4, int (-3))].
Definition four_X : mat qc := mkMat (int 104) (int 72) (int 72) (int 146).
Definition svd_four (_ : mat qc) : mat qc * (qc * qc) * mat qc :=
  (mkMat (num 3 5) (num (-4) 5) (num 4 5) (num 3 5), (int 200, int 50), mkMat (num 3 5) (num 4 5) (num (-4) 5) (num 3 5)).

Lemma four_cov : covariance qc four four four_X.
Proof. unfold covariance, cov. repeat split; qc_eq. Qed.

Lemma svd_four_ok : is_svd qc four_X (svd_four four_X).
Proof. unfold is_svd, svd_four, orthogonal. repeat split; try qc_eq; qc_le. Qed.

Definition plain (v : vec qc) : Q * Q := (this (fst v), this (snd v)).

(** Where the four points are sent: not to themselves *)
Example four_sent :
  let '(R, t) := kabsch qc svd_four four four in map plain (map (moved qc R t) four) = [(6, -8); (-6, 8); (4, 3); (-4, -3)]%Q.
Proof. vm_compute. reflexivity. Qed.

Lemma self_refuted : exists (F : ofield) svd S1 A B R t X u s vh,
  align_format F svd S1 S1 ([0; 1; 2; 3], [0; 1; 2; 3]) = Ret (A, B, Some (R, t)) /\ A = S1 /\ B = S1
  /\ covariance F A B X /\ svd X = (u, s, vh) /\ is_svd F X (u, s, vh) /\ ~ fits F R t A B.
Proof.
  exists qc, svd_four, four, four, four, (fst (kabsch qc svd_four four four)), (snd (kabsch qc svd_four four four)).
  exists four_X, (fst (fst (svd_four four_X))), (snd (fst (svd_four four_X))), (snd (svd_four four_X)).
  split; [reflexivity|]. split; [reflexivity|]. split; [reflexivity|]. split; [exact four_cov|]. split; [reflexivity|].
  split; [exact svd_four_ok|]. intros H. apply (f_equal (map plain)) in H. vm_compute in H. discriminate H.
Qed.

Lemma good_example :
  align_format qc svd_good cross crossed ([0; 1; 2; 3], [0; 1; 2; 3])
  = Ret (cross, crossed, Some (kabsch qc svd_good cross crossed))
  /\ rotation qc turn /\ fits qc turn (int 10, int 20) cross crossed
  /\ covariance qc cross crossed cross_X /\ is_svd qc cross_X (svd_good cross_X) /\ is_symmetric qc (snd (svd_good cross_X))
  /\ is_svd qc cross_X (svd_bad cross_X) /\ ~ is_symmetric qc (snd (svd_bad cross_X)) /\ ~ all_equal qc cross.
Proof.
  split; [reflexivity|]. split; [exact turn_rotation|]. split; [reflexivity|]. split; [exact cross_cov|].
  split; [exact svd_good_ok|]. split; [qc_eq|]. split; [exact svd_bad_ok|]. split.
  - intros H. apply (f_equal this) in H. vm_compute in H. discriminate H.
  - intros H. specialize (H _ _ (or_introl eq_refl) (or_intror (or_introl eq_refl))). apply (f_equal plain) in H. vm_compute in H. discriminate H.
Qed.

Example good_sent :
  let '(R, t) := kabsch qc svd_good cross crossed in map plain (map (moved qc R t) cross) = map plain crossed.
Proof. vm_compute. reflexivity. Qed.

(** The other decomposition turns the points the other way. *)
Example bad_turn :
  let '(R, _) := kabsch qc svd_bad cross crossed in (this (m00 R), this (m01 R), this (m10 R), this (m11 R)) = (3 # 5, -4 # 5, 4 # 5, 3 # 5)%Q.
Proof. vm_compute. reflexivity. Qed.
