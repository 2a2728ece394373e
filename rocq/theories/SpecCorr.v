(** SpecCorr: what all_correspondences leaves out. *)
From Verif Require Import Base MApi Spec.
Local Open Scope nat_scope.

(** The match of the first elements is among the matches, and none of them is compatible with fewer matches than it. *)
Definition first_match_first (p : pygraph) (n2 : nat) (a b : list nat) : Prop :=
  (exists k, k < length a /\ nth k a 0 = 0 /\ nth k b 0 = 0)
  /\ forall k d0 d, k < length a -> degree (neighbour p) (vid n2 0 0) d0 ->
       degree (neighbour p) (vid n2 (nth k a 0) (nth k b 0)) d -> d0 <= d.
