(** SpecTheta: cosine and sine, and the rotation by an angle. No proofs here. *)
From Verif Require Import Base MKabsch.
Local Open Scope nat_scope.

Section Spec.
  Variable F : ofield.
  Notation "0" := (f0 F).
  Notation "1" := (f1 F).
  Infix "+" := (fadd F).
  Infix "*" := (fmul F).
  Infix "-" := (fsub F).
  Infix "<=" := (fle F).
  Notation "- x" := (fopp F x).

  (** What is used of the two functions *)
  Definition cos_sin (cos sin : F -> F) : Prop :=
    forall x, cos x * cos x + sin x * sin x = 1 /\ cos (- x) = cos x /\ sin (- x) = - sin x.

  (** An angle of the upper half of the circle with the given cosine *)
  Definition arc_of (cos sin : F -> F) (arccos : F -> option F) : Prop :=
    forall x t, arccos x = Some t -> cos t = x /\ 0 <= sin t.

  (** The point p turned about the origin by the angle a, from the first axis towards the second, then shifted by t *)
  Definition turned (cos sin : F -> F) (a : F) (t p : vec F) : vec F :=
    (fst p * cos a - snd p * sin a + fst t, fst p * sin a + snd p * cos a + snd t).

  (** x and y differ by at most d *)
  Definition near (d x y : F) : Prop := x - y <= d /\ y - x <= d.
End Spec.
