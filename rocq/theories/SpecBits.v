(** SpecBits: what it means for a block of 64-bit words to hold a finite set of positions. No proofs here. *)
From Verif Require Import Base MBits.
Local Open Scope nat_scope.

(** Position [x] of a word, most significant bit first. *)
Notation pos x := (N.of_nat (63 - x mod 64)).

(** All entries of the memory are 64-bit words. *)
Definition memok (m : list N) : Prop := Forall (fun w => (w < two64)%N) m.

(** Bit [i] of the bitset whose first word is at index [off]. *)
Definition wbit (m : list N) (off i : nat) : bool := N.testbit (nth (off + i / 64) m 0%N) (pos i).

(** The block of [words n] words at [off] (that is ceil(n / 64), see [words_spec]) lies inside the memory and represents the
    set [P] of positions below [n]; padding is zero. *)
Definition rep (m : list N) (off n : nat) (P : nat -> bool) : Prop :=
  off + words n <= length m /\ forall i, i < 64 * words n -> wbit m off i = (i <? n) && P i.

(** [m'] has the same size as [m] and differs from it only inside the [w] words from [off]. *)
Definition same_out (m m' : list N) (off w : nat) : Prop :=
  length m' = length m /\ forall k, ~ (off <= k < off + w) -> nth k m' 0%N = nth k m 0%N.

(** The members of [P] below [n], in increasing order. *)
Definition members (n : nat) (P : nat -> bool) : list nat := filter P (seq 0 n).
