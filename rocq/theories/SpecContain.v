(** SpecContain: one set contained in another. No proofs here. *)
From Verif Require Import Base Spec.
Local Open Scope nat_scope.

(** [phi] sends the elements 0..n1-1 to different ones of 0..n2-1. *)
Definition placed (n1 n2 : nat) (phi : nat -> nat) : Prop :=
  (forall k, k < n1 -> phi k < n2) /\ (forall k l, k < n1 -> l < n1 -> phi k = phi l -> k = l).
