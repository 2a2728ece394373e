(** SpecGen: what the properties of the generic wrappers (C64, C65) and of the mask filter (C66) are stated with. No proofs here. *)
From Verif Require Import Base MApi MExt MGen MAlign Spec.
From Coq Require Import QArith Qround.
Local Open Scope nat_scope.

(** The documented metric of a set: the one given, else the Euclidean distance if the set is an array, else none. *)
Definition wanted {E : Type} (S : gset E) (d : option metric) : option metric :=
  match d with Some f => Some f | None => gs_euclid S end.

(** It counts as symmetric if declared so by the user, or if it is the Euclidean distance. *)
Definition declared (d : option metric) (sym : bool) : bool := match d with Some _ => sym | None => true end.

Definition wanted_set {E : Type} (S : gset E) (d : option metric) (sym : bool) (f : metric) : mset :=
  mkM (length (gs_elems S)) f (declared d sym).

(** Any two of the matched pairs are at distances that differ by less than [eps]. *)
Definition close_matches (f1 f2 : metric) (eps : Z) (a b : list nat) : Prop := forall k l, k < length a -> l < length a -> k <> l ->
  (Z.abs (f1 (nth k a 0%nat) (nth l a 0%nat) - f2 (nth k b 0%nat) (nth l b 0%nat)) < eps)%Z.

(** ... differ by at most [eps], or the distance in set 2 is the next one outside the interval (C44). *)
Definition near_matches (f1 : metric) (S2 : mset) (eps : Z) (a b : list nat) : Prop := forall k l, k < length a -> l < length a -> k <> l ->
  (Z.abs (f1 (nth k a 0%nat) (nth l a 0%nat) - m_d S2 (nth k b 0%nat) (nth l b 0%nat)) <= eps)%Z
  \/ next_to S2 eps (f1 (nth k a 0%nat) (nth l a 0%nat)) (m_d S2 (nth k b 0%nat) (nth l b 0%nat)).

(** The condition accepts any two of the matched pairs: with the smaller index of set 1 first, and in the other order as well
    unless the metric of set 1 counts as symmetric. *)
Definition allowed (sym : bool) (f : nat -> nat -> nat -> nat -> bool) (a b : list nat) : Prop := forall k l, k < length a -> l < length a ->
  nth k a 0 <> nth l a 0 -> sym = false \/ nth k a 0 < nth l a 0 -> f (nth k a 0) (nth l a 0) (nth k b 0) (nth l b 0) = true.

(** The condition has accepted any two of the matched pairs: with the smaller index of set 1 first if the metric of set 1
    counts as symmetric, else in one order or the other. *)
Definition passed (sym : bool) (f : nat -> nat -> nat -> nat -> bool) (a b : list nat) : Prop := forall k l, k < length a -> l < length a ->
  nth k a 0 < nth l a 0 -> f (nth k a 0) (nth l a 0) (nth k b 0) (nth l b 0) = true
    \/ sym = false /\ f (nth l a 0) (nth k a 0) (nth l b 0) (nth k b 0) = true.

(** [xs] are the elements at the positions [idx]. *)
Definition elements_at {E : Type} (l : list E) (idx : list nat) (xs : list E) : Prop :=
  Forall2 (fun i x => nth_error l i = Some x) idx xs.

(** A rotation with scaling and translation of the plane, and the image of a point. *)
Record similarity : Type := mkSim { sm_a : Q; sm_b : Q; sm_c0 : Q; sm_c1 : Q }.

Definition image (t : similarity) (s : point) : point :=
  (sm_a t * fst s - sm_b t * snd s + sm_c0 t, sm_b t * fst s + sm_a t * snd s + sm_c1 t)%Q.

Definition same_point (s d : point) : Prop := (fst s == fst d /\ snd s == snd d)%Q.

(** The similarity sends s1 to d1 and s2 to d2. *)
Definition aligns (t : similarity) (s1 d1 s2 d2 : point) : Prop := same_point (image t s1) d1 /\ same_point (image t s2) d2.

(** The point (x, y) lies in a cell (row y, column x) of the mask that is set. *)
Definition inside (m : mask) (s : point) : bool :=
  ((0 <=? Qfloor (fst s)) && (Qfloor (fst s) <? Z.of_nat (mk_cols m)) && (0 <=? Qfloor (snd s)) && (Qfloor (snd s) <? Z.of_nat (mk_rows m)))%Z
  && mk_at m (Z.to_nat (Qfloor (snd s))) (Z.to_nat (Qfloor (fst s))).

(** At least the fraction [pct] of the control points lies inside the mask after the transformation. *)
Definition enough (ctl : list point) (m : mask) (pct : Q) (t : similarity) : Prop :=
  (pct * inject_Z (Z.of_nat (length ctl)) <= inject_Z (Z.of_nat (length (filter (fun s => inside m (image t s)) ctl))))%Q.

(** Coordinates a u64 can hold. *)
Definition on_canvas (s : point) : Prop :=
  (0 <= fst s /\ fst s < inject_Z 18446744073709551616 /\ 0 <= snd s /\ snd s < inject_Z 18446744073709551616)%Q.
