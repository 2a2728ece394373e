(** SpecBeside: two graphs side by side (C108). No proofs here. *)
From Verif Require Import Base Spec SpecNW.
Local Open Scope nat_scope.

(** Every vertex [m] higher. *)
Definition shift (m : nat) (c : list nat) : list nat := map (Nat.add m) c.

(** The third graph consists of the first, on 1..m, and the second, on the vertices from m+1 on. *)
Definition beside (m : nat) (adj1 adj2 adj : nat -> nat -> Prop) : Prop :=
  forall u v, adj u v <-> adj1 u v \/ exists x y, u = m + x /\ v = m + y /\ adj2 x y.

(** And the vertices have their weights. *)
Definition weights_beside (m : nat) (w1 w2 w : list Z) : Prop :=
  (forall v, 1 <= v <= m -> vweight w v = vweight w1 v) /\ forall v, 1 <= v -> vweight w (m + v) = vweight w2 v.
