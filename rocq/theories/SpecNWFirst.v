(** SpecNWFirst: which of the heaviest cliques a search of NWGraph returns (C106). No proofs here. *)
From Verif Require Import Base Spec SpecNW SpecOrder.
Local Open Scope nat_scope.

(** [u] comes after [v] in the order of weighted degrees, and of numbers where the weighted degrees are equal. *)
Definition weighs_after (adj : nat -> nat -> Prop) (w : list Z) (v u : nat) : Prop :=
  forall xu xv, wdegree adj w u xu -> wdegree adj w v xv -> (xv < xu)%Z \/ (xv = xu /\ v < u).

(** [v] and its neighbours that come after it weigh [x]. *)
Definition later_weight (adj : nat -> nat -> Prop) (w : list Z) (v : nat) (x : Z) : Prop :=
  exists l, NoDup l /\ (forall u, In u l <-> u = v \/ adj v u /\ weighs_after adj w v u) /\ weight w l = x.

(** The vertex for which this is most, the lowest one if there are several. *)
Definition weightiest (n : nat) (adj : nat -> nat -> Prop) (w : list Z) (s : nat) : Prop :=
  1 <= s <= n /\ exists x, later_weight adj w s x
    /\ (forall v y, 1 <= v <= n -> later_weight adj w v y -> (y <= x)%Z)
    /\ (forall v y, 1 <= v < s -> later_weight adj w v y -> (y < x)%Z).

(** No vertex that comes after the one the clique [d] is built from can be added to [d]. *)
Definition saturated (adj : nat -> nat -> Prop) (w : list Z) (d : list nat) : Prop :=
  forall v u, starts_at adj w d v -> weighs_after adj w v u -> ~ (forall x, In x d -> adj x u).

(** First the cliques built from [s], then those built from vertex 1, 2, ...; those built from one vertex in lexicographic order. *)
Definition found_before (adj : nat -> nat -> Prop) (w : list Z) (s : nat) (c d : list nat) : Prop :=
  exists v v', starts_at adj w c v /\ starts_at adj w d v' /\ (v' <> s /\ (v = s \/ v < v') \/ v = v' /\ lex c d).
