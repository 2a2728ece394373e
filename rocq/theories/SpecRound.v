(** SpecRound: doubles and rounding to nearest. No proofs here.
    Numbers are counted in units of the smallest positive double, 2^-1074, of which every finite double is a multiple. Infinities
    and NaN are left out: exponents have no upper end. *)
From Verif Require Import Base MExt Spec.
Local Open Scope Z_scope.

Definition double (z : Z) : Prop := exists m e, Z.abs m < 2 ^ 53 /\ 0 <= e /\ z = m * 2 ^ e.

(** Every result is a double no further from the exact value than any other double; ties may go either way. *)
Definition nearest (rnd : Z -> Z) : Prop := forall x, double (rnd x) /\ forall y, double y -> Z.abs (x - rnd x) <= Z.abs (x - y).

(** Round half to even, as IEEE 754 does by default *)
Definition half_even (x : Z) : Z :=
  let k := Z.log2 (Z.abs x) - 52 in
  if k <=? 0 then x
  else
    let q := x / 2 ^ k in
    let r := x mod 2 ^ k in
    if 2 * r <? 2 ^ k then q * 2 ^ k
    else if 2 ^ k <? 2 * r then (q + 1) * 2 ^ k
    else if Z.even q then q * 2 ^ k else (q + 1) * 2 ^ k.

(** The distances of a set are nonnegative doubles. *)
Definition measured (S : mset) : Prop := forall i j, two S i j -> 0 <= m_d S i j /\ double (m_d S i j).

(** [t] differs from [a] by at most [eps], give or take three units of 2^-53 relative to [a + eps]. *)
Definition about (eps a t : Z) : Prop := 2 ^ 53 * (Z.abs (a - t) - eps) <= 3 * (a + eps).

(** [t] differs from [a] by less than [eps], with as much to spare. *)
Definition well_inside (eps a t : Z) : Prop := 3 * (a + eps) < 2 ^ 53 * (eps - Z.abs (a - t)).

(** All weights are multiples of the same power of two, and together come to at most 2^53 of it: whole numbers, for one. *)
Definition on_grid (w : list Z) : Prop :=
  exists k, 0 <= k /\ (forall x, In x w -> (2 ^ k | x)) /\ fold_right (fun x s => Z.abs x + s) 0 w <= 2 ^ 53 * 2 ^ k.

(** Any two of the matched pairs are at distances [about] eps apart, or the distance in set 2 is the next one outside the interval (C70). *)
Definition about_matches (f1 : nat -> nat -> Z) (S2 : mset) (eps : Z) (a b : list nat) : Prop :=
  forall k l, (k < length a)%nat -> (l < length a)%nat -> k <> l ->
  let x := f1 (nth k a 0%nat) (nth l a 0%nat) in
  let y := m_d S2 (nth k b 0%nat) (nth l b 0%nat) in
  about eps x y
  \/ y < x - eps /\ (forall i j, two S2 i j -> m_d S2 i j <= y \/ x - eps < m_d S2 i j)
  \/ x + eps < y /\ (forall i j, two S2 i j -> y <= m_d S2 i j \/ m_d S2 i j < x \/ about eps x (m_d S2 i j)).

(** Any two of the matched pairs are at distances that differ by less than [eps], with room to spare. *)
Definition inside_matches (f1 f2 : nat -> nat -> Z) (eps : Z) (a b : list nat) : Prop :=
  forall k l, (k < length a)%nat -> (l < length a)%nat -> k <> l ->
  well_inside eps (f1 (nth k a 0%nat) (nth l a 0%nat)) (f2 (nth k b 0%nat) (nth l b 0%nat)).
