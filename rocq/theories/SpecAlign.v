(** SpecAlign: what the properties of AlignGraph (C94, C95) are stated with. No proofs here. *)
From Verif Require Import Base MGen MAlign MKabsch Spec SpecGen SpecKabsch.
From Coq Require Import QArith.
Local Open Scope nat_scope.

Section Aligned.
  Variables (M1 M2 : nat -> point) (ctl : list point) (m : mask) (pct : Q) (a b : list nat).

  (** Any two of the matched pairs are different points of set 2, and the similarity that sends them to their partners sends
      enough control points into the mask, and all of them to coordinates a u64 can hold. *)
  Definition well_aligned : Prop := forall k l, k < length a -> l < length a -> nth k a 0 < nth l a 0 ->
    ~ same_point (M2 (nth k b 0)) (M2 (nth l b 0))
    /\ exists t, aligns t (M2 (nth k b 0)) (M1 (nth k a 0)) (M2 (nth l b 0)) (M1 (nth l a 0))
         /\ (forall s, In s ctl -> on_canvas (image t s)) /\ enough ctl m pct t.

  (** For any two of the matched pairs, that similarity sends enough control points into the mask, provided all land at
      coordinates a u64 can hold. If the two points of set 2 are the same, no control points were asked for. *)
  Definition aligned : Prop := forall k l, k < length a -> l < length a -> nth k a 0 < nth l a 0 ->
    (same_point (M2 (nth k b 0)) (M2 (nth l b 0)) -> (pct <= 0)%Q)
    /\ forall t, ~ same_point (M2 (nth k b 0)) (M2 (nth l b 0)) ->
         aligns t (M2 (nth k b 0)) (M1 (nth k a 0)) (M2 (nth l b 0)) (M1 (nth l a 0)) ->
         (forall s, In s ctl -> on_canvas (image t s)) -> enough ctl m pct t.
End Aligned.

(** [x] is the dictionary for the matches [ab]: the two lists of points, and a rotation whenever svd delivers a singular value
    decomposition of their covariance matrix. *)
Definition described (F : ofield) (svd : mat F -> mat F * (F * F) * mat F) (S1 S2 : list (vec F)) (ab : list nat * list nat)
    (x : list (vec F) * list (vec F) * option (F * mat F * vec F)) : Prop :=
  exists A B th R t, x = (A, B, Some (th, R, t)) /\ elements_at S1 (fst ab) A /\ elements_at S2 (snd ab) B
    /\ (forall X u s vh, covariance F A B X -> svd X = (u, s, vh) -> is_svd F X (u, s, vh) -> rotation F R).
