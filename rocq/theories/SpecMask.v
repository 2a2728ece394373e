(** SpecMask: conversions to float32. No proofs here. *)
From Verif Require Import Base MGen MAlign SpecGen.
From Coq Require Import QArith.
Local Open Scope Q_scope.

(** [f32] changes neither the four points nor the transformation. *)
Definition exact_here (f32 : Q -> Q) (s1 d1 s2 d2 : point) : Prop :=
  (forall s, In s [s1; d1; s2; d2] -> f32 (fst s) == fst s /\ f32 (snd s) == snd s)
  /\ forall t x, aligns t s1 d1 s2 d2 -> (x == sm_a t \/ x == sm_b t \/ x == sm_c0 t \/ x == sm_c1 t) -> f32 x == x.

(** What is used of float32: equal numbers are converted equally, integers of up to 24 bits, and even ones of up to 25, are kept, and
    2^24 + 1 goes to one of its neighbours. *)
Definition like_float32 (f32 : Q -> Q) : Prop :=
  (forall x y, x == y -> f32 x == f32 y)
  /\ (forall k, (Z.abs k <= 16777216)%Z -> f32 (inject_Z k) == inject_Z k)
  /\ (forall k, (Z.abs k <= 16777216)%Z -> f32 (inject_Z (2 * k)) == inject_Z (2 * k))
  /\ (f32 (inject_Z 16777217) == inject_Z 16777216 \/ f32 (inject_Z 16777217) == inject_Z 16777218).
