(** ThetaSamples: rational angles, given by the tangent of their half. Tests, not claims. *)
From Coq Require Import Field QArith Qcanon.
From Verif Require Import Base MGen MKabsch SpecGen SpecKabsch SpecTheta KabschFacts KabschProps KabschSamples ThetaProps.
Local Open Scope nat_scope.

Definition half_cos (x : qc) : qc := ((1 - x * x) / (1 + x * x))%Qc.
Definition half_sin (x : qc) : qc := ((1 + 1) * x / (1 + x * x))%Qc.
Definition arc (x : qc) : option qc := if Qc_eq_dec x (num 3 5) then Some (num 1 2) else None.

Lemma one_square (x : Qc) : (1 + x * x <> 0)%Qc.
Proof.
  intros E. pose proof (square_nonneg qc x) as H. pose proof (one_nonneg qc) as H1.
  destruct (sum_zero qc (1%Qc) (x * x)%Qc H1 H E) as [E1 _]. discriminate E1.
Qed.

Lemma half_one (x : Qc) :
  ((1 - x * x) / (1 + x * x) * ((1 - x * x) / (1 + x * x)) + (1 + 1) * x / (1 + x * x) * ((1 + 1) * x / (1 + x * x)) = 1)%Qc.
Proof. field. apply one_square. Qed.

Lemma half_odd (x : Qc) : ((1 + 1) * - x / (1 + x * x) = - ((1 + 1) * x / (1 + x * x)))%Qc.
Proof. field. apply one_square. Qed.

Lemma half_ok : cos_sin qc half_cos half_sin.
Proof.
  intros x. unfold half_cos, half_sin. cbn [f0 f1 fadd fmul fsub fopp qc].
  assert (E : (- x * - x = x * x)%Qc) by ring. rewrite E.
  split; [exact (half_one x)|]. split; [reflexivity|exact (half_odd x)].
Qed.

Lemma arc_ok : arc_of qc half_cos half_sin arc.
Proof.
  intros x t. unfold arc. destruct (Qc_eq_dec x (num 3 5)) as [->|]; [|discriminate]. intros E. injection E as <-.
  split; [qc_eq|qc_le].
Qed.

Lemma cross_dict : align_dict qc arc svd_good cross crossed ([0; 1; 2; 3], [0; 1; 2; 3])
  = Ret (cross, crossed, Some (num (-1) 2, fst (kabsch qc svd_good cross crossed), snd (kabsch qc svd_good cross crossed))).
Proof.
  unfold align_dict. change (align_format qc svd_good cross crossed ([0; 1; 2; 3], [0; 1; 2; 3]))
    with (@Ret (list (vec qc) * list (vec qc) * option (mat qc * vec qc)) (cross, crossed, Some (kabsch qc svd_good cross crossed))).
  destruct (kabsch qc svd_good cross crossed) as [R t] eqn:E. cbv iota beta. cbn [fst snd]. do 4 f_equal.
  assert (H0 : m00 R = num 3 5) by (replace R with (fst (kabsch qc svd_good cross crossed)) by (rewrite E; reflexivity); qc_eq).
  assert (H1 : m10 R = num (-4) 5) by (replace R with (fst (kabsch qc svd_good cross crossed)) by (rewrite E; reflexivity); qc_eq).
  unfold theta_of. rewrite H0, H1. unfold arc. destruct (Qc_eq_dec (num 3 5) (num 3 5)) as [_|N]; [|congruence].
  change (negb (fleb qc (f0 qc) (num (-4) 5))) with true. reflexivity.
Qed.

Lemma theta_refuted : exists (F : ofield) cos sin arccos svd S1 S2 A B th R t X u s vh,
  cos_sin F cos sin /\ arc_of F cos sin arccos /\ arccos (m00 R) <> None
  /\ align_dict F arccos svd S1 S2 ([0; 1; 2; 3], [0; 1; 2; 3]) = Ret (A, B, Some (th, R, t))
  /\ covariance F A B X /\ svd X = (u, s, vh) /\ is_svd F X (u, s, vh)
  /\ fits F R t A B /\ B <> map (turned F cos sin th t) A.
Proof.
  set (R := fst (kabsch qc svd_good cross crossed)). set (t := snd (kabsch qc svd_good cross crossed)).
  exists qc, half_cos, half_sin, arc, svd_good, cross, crossed, cross, crossed, (num (-1) 2), R, t.
  exists cross_X, (fst (fst (svd_good cross_X))), (snd (fst (svd_good cross_X))), (snd (svd_good cross_X)).
  split; [exact half_ok|]. split; [exact arc_ok|].
  split. { assert (H : m00 R = num 3 5) by qc_eq. rewrite H. unfold arc. destruct (Qc_eq_dec (num 3 5) (num 3 5)); congruence. }
  split; [exact cross_dict|]. split; [exact cross_cov|]. split; [reflexivity|]. split; [exact svd_good_ok|].
  split.
  - apply (result_exact qc svd_good cross crossed [0; 1; 2; 3] [0; 1; 2; 3] cross crossed R t cross_X (fst (fst (svd_good cross_X)))
      (snd (svd_good cross_X)) (snd (fst (svd_good cross_X))) eq_refl) with (R0 := turn) (t0 := (int 10, int 20)).
    + subst R t. destruct (kabsch qc svd_good cross crossed) eqn:E. unfold align_format. cbn [fst snd]. rewrite <- E. reflexivity.
    + exact cross_cov.
    + reflexivity.
    + exact svd_good_ok.
    + exact turn_rotation.
    + reflexivity.
    + left. reflexivity.
  - intros H. apply (f_equal (map plain)) in H. vm_compute in H. discriminate H.
Qed.
