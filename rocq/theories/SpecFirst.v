(** SpecFirst: which of the largest cliques a search returns. No proofs here. *)
From Verif Require Import Base MApi Spec SpecNW SpecCont SpecOrder.
Local Open Scope nat_scope.

(** [u] comes after [v] in the order of degrees, and of numbers where the degrees are equal. *)
Definition comes_after (adj : nat -> nat -> Prop) (v u : nat) : Prop :=
  forall du dv, degree adj u du -> degree adj v dv -> dv < du \/ (dv = du /\ v < u).

(** [v] has [k] neighbours that come after it. *)
Definition later_neighbours (adj : nat -> nat -> Prop) (v k : nat) : Prop :=
  exists l, NoDup l /\ (forall u, In u l <-> adj v u /\ comes_after adj v u) /\ length l = k.

(** The vertex with the most neighbours that come after it, the lowest one if there are several. *)
Definition richest (n : nat) (adj : nat -> nat -> Prop) (s : nat) : Prop :=
  1 <= s <= n /\ exists k, later_neighbours adj s k
    /\ (forall v m, 1 <= v <= n -> later_neighbours adj v m -> m <= k)
    /\ (forall v m, 1 <= v < s -> later_neighbours adj v m -> m < k).

(** First the cliques met at [s], then those met at vertex 1, 2, ...; those met at the same vertex are compared by [cmp]. *)
Definition met_before (adj : nat -> nat -> Prop) (s : nat) (cmp : nat -> list nat -> list nat -> Prop) (c d : list nat) : Prop :=
  exists v v', opens adj c v /\ opens adj d v' /\ (v' <> s /\ (v = s \/ v < v') \/ v = v' /\ cmp v c d).

(** The greatest vertex of [c] other than [v]. *)
Definition greatest_but (v : nat) (c : list nat) (x : nat) : Prop :=
  In x c /\ x <> v /\ forall y, In y c -> y <> v -> y <= x.

(** Lexicographically, except for the last vertex (not counting [v]), which is the greatest possible. *)
Definition lex_then_last (v : nat) (c d : list nat) : Prop :=
  exists x y, greatest_but v c x /\ greatest_but v d y
    /\ (lex (remove Nat.eq_dec x c) (remove Nat.eq_dec y d) \/ remove Nat.eq_dec x c = remove Nat.eq_dec y d /\ y < x).
