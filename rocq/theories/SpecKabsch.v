(** SpecKabsch: rotations, singular value decompositions and the distance between two lists of points. No proofs here. *)
From Verif Require Import Base MKabsch.
Local Open Scope nat_scope.

Section Spec.
  Variable F : ofield.
  Notation "0" := (f0 F).
  Notation "1" := (f1 F).
  Infix "+" := (fadd F).
  Infix "*" := (fmul F).
  Infix "-" := (fsub F).
  Infix "<=" := (fle F).

  (** Rows of length one at right angles; a rotation if orientation is kept. *)
  Definition orthogonal (A : mat F) : Prop :=
    m00 A * m00 A + m01 A * m01 A = 1 /\ m10 A * m10 A + m11 A * m11 A = 1 /\ m00 A * m10 A + m01 A * m11 A = 0.
  Definition rotation (A : mat F) : Prop := orthogonal A /\ m00 A * m11 A - m01 A * m10 A = 1.

  (** X = u * diag(s) * vh, as documented for numpy.linalg.svd *)
  Definition is_svd (X : mat F) (r : mat F * (F * F) * mat F) : Prop :=
    let '(u, s, vh) := r in
    orthogonal u /\ orthogonal vh /\ 0 <= snd s /\ snd s <= fst s
    /\ m00 X = m00 u * fst s * m00 vh + m01 u * snd s * m10 vh /\ m01 X = m00 u * fst s * m01 vh + m01 u * snd s * m11 vh
    /\ m10 X = m10 u * fst s * m00 vh + m11 u * snd s * m10 vh /\ m11 X = m10 u * fst s * m01 vh + m11 u * snd s * m11 vh.

  Definition is_symmetric (A : mat F) : Prop := m01 A = m10 A.

  (** The image of a point under p -> p * R + t, points being rows *)
  Definition moved (R : mat F) (t p : vec F) : vec F :=
    (fst p * m00 R + snd p * m10 R + fst t, fst p * m01 R + snd p * m11 R + snd t).

  (** The sum of the squared distances of moved points from their partners *)
  Fixpoint misfit (R : mat F) (t : vec F) (A B : list (vec F)) : F :=
    match A, B with
    | a :: A, b :: B =>
        let q := moved R t a in
        (fst q - fst b) * (fst q - fst b) + (snd q - snd b) * (snd q - snd b) + misfit R t A B
    | _, _ => 0
    end.

  (** Sums over the points, and over the pairs *)
  Fixpoint over (f : vec F -> F) (A : list (vec F)) : F := match A with [] => 0 | a :: A => f a + over f A end.
  Fixpoint over2 (f : vec F -> vec F -> F) (A B : list (vec F)) : F :=
    match A, B with a :: A, b :: B => f a b + over2 f A B | _, _ => 0 end.

  (** n times the covariance of the coordinate f of A with the coordinate g of B *)
  Definition cov (f g : vec F -> F) (A B : list (vec F)) (x : F) : Prop :=
    over (fun _ => 1) A * x = over (fun _ => 1) A * over2 (fun a b => f a * g b) A B - over f A * over g B.
  Definition covariance (A B : list (vec F)) (X : mat F) : Prop :=
    cov fst fst A B (m00 X) /\ cov fst snd A B (m01 X) /\ cov snd fst A B (m10 X) /\ cov snd snd A B (m11 X).

  (** R and t send every point to its partner *)
  Definition fits (R : mat F) (t : vec F) (A B : list (vec F)) : Prop := B = map (moved R t) A.

  Definition all_equal (A : list (vec F)) : Prop := forall a b, In a A -> In b A -> a = b.
End Spec.
