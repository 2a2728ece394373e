(** P_Bits: properties C52-C55 (bitsets, binary search, edge cleaning). *)
From Verif Require Import Base MBits SpecBits MUtils BitsFacts SetFacts BitsProps RadixFacts SortFacts.
From Coq Require Import Sorting.Sorted.
Local Open Scope nat_scope.

(** * C52: bitset operations implement finite sets.
    A bitset of n positions occupies ceil(n/64) words; [rep m off n P] says it holds the set P. *)
Theorem C52_word_count : forall n, words n = (n + 63) / 64.
Proof. exact words_spec. Qed.
Print Assumptions C52_word_count.

Theorem C52_set : forall m off n P b i,
  memok m -> rep m off n P -> gdata b = off -> i < n ->
  ends_with (bits_set m b i)
    (fun m' => memok m' /\ rep m' off n (fun x => (x =? i) || P x) /\ same_out m m' off (words n)).
Proof. exact bits_set_spec. Qed.
Print Assumptions C52_set.

Theorem C52_reset : forall m off n P b i,
  memok m -> rep m off n P -> gdata b = off -> i < n ->
  ends_with (bits_reset m b i)
    (fun m' => memok m' /\ rep m' off n (fun x => negb (x =? i) && P x) /\ same_out m m' off (words n)).
Proof. exact bits_reset_spec. Qed.
Print Assumptions C52_reset.

Theorem C52_toggle : forall m off n P b i,
  memok m -> rep m off n P -> gdata b = off -> i < n ->
  ends_with (bits_toggle m b i)
    (fun m' => memok m' /\ rep m' off n (fun x => xorb (x =? i) (P x)) /\ same_out m m' off (words n)).
Proof. exact bits_toggle_spec. Qed.
Print Assumptions C52_toggle.

Theorem C52_test : forall m off n P b i,
  rep m off n P -> gdata b = off -> i < n -> bits_get m b i = Ok (P i).
Proof. exact bits_get_spec. Qed.
Print Assumptions C52_test.

Theorem C52_next : forall m off n P b i,
  memok m -> rep m off n P -> b = refer_from off n ->
  ends_with (bits_next m b i)
    (fun r => (i <= r < n /\ P r = true /\ forall x, i <= x < r -> P x = false)
              \/ (r = n /\ forall x, i <= x < n -> P x = false)).
Proof. exact bits_next_spec. Qed.
Print Assumptions C52_next.

Theorem C52_count : forall m off n P b,
  memok m -> rep m off n P -> b = refer_from off n -> 0 < n -> bits_count m b = Ok (m, length (members n P)).
Proof. exact bits_count_spec. Qed.
Print Assumptions C52_count.

Theorem C52_get_subset : forall m off n P b elems base,
  memok m -> rep m off n P -> b = refer_from off n -> 0 < n -> base + n <= length elems ->
  bits_subset m b elems base = Ok (m, map (fun i => nth (base + i) elems 0) (members n P)).
Proof. exact bits_subset_spec. Qed.
Print Assumptions C52_get_subset.

Theorem C52_intersection : forall m o1 o2 n P Q,
  memok m -> rep m o1 n P -> rep m o2 n Q -> (o1 + words n <= o2 \/ o2 + words n <= o1) -> 0 < n ->
  ends_with (bits_and m (refer_from o1 n) (refer_from o2 n))
    (fun m' => memok m' /\ rep m' o1 n (fun i => P i && Q i) /\ same_out m m' o1 (words n)).
Proof. exact bits_and_spec. Qed.
Print Assumptions C52_intersection.

Theorem C52_union : forall m o1 o2 n P Q,
  memok m -> rep m o1 n P -> rep m o2 n Q -> (o1 + words n <= o2 \/ o2 + words n <= o1) -> 0 < n ->
  ends_with (bits_or m (refer_from o1 n) (refer_from o2 n))
    (fun m' => memok m' /\ rep m' o1 n (fun i => P i || Q i) /\ same_out m m' o1 (words n)).
Proof. exact bits_or_spec. Qed.
Print Assumptions C52_union.

Theorem C52_symmetric_difference : forall m o1 o2 n P Q,
  memok m -> rep m o1 n P -> rep m o2 n Q -> (o1 + words n <= o2 \/ o2 + words n <= o1) -> 0 < n ->
  ends_with (bits_xor m (refer_from o1 n) (refer_from o2 n))
    (fun m' => memok m' /\ rep m' o1 n (fun i => xorb (P i) (Q i)) /\ same_out m m' o1 (words n)).
Proof. exact bits_xor_spec. Qed.
Print Assumptions C52_symmetric_difference.

Theorem C52_difference : forall m o1 o2 n P Q,
  memok m -> rep m o1 n P -> rep m o2 n Q -> (o1 + words n <= o2 \/ o2 + words n <= o1) -> 0 < n ->
  ends_with (bits_minus m (refer_from o1 n) (refer_from o2 n))
    (fun m' => memok m' /\ rep m' o1 n (fun i => P i && negb (Q i)) /\ same_out m m' o1 (words n)).
Proof. exact bits_minus_spec. Qed.
Print Assumptions C52_difference.

Theorem C52_copy : forall m src n P ptr,
  memok m -> rep m src n P -> ptr + words n <= length m -> (ptr + words n <= src \/ src + words n <= ptr) ->
  ends_with (bits_copy_from m (refer_from src n) ptr)
    (fun r => snd r = refer_from ptr n /\ memok (fst r) /\ rep (fst r) ptr n P /\ same_out m (fst r) ptr (words n)).
Proof. exact bits_copy_from_spec. Qed.
Print Assumptions C52_copy.

Theorem C52_clear : forall m off n P b k,
  memok m -> rep m off n P -> b = refer_from off n ->
  ends_with (bits_clear m b k)
    (fun m' => memok m' /\ rep m' off n (fun x => negb (k =? 0) && (k / 64 <? x / 64) && P x) /\ same_out m m' off (words n)).
Proof. exact bits_clear_any. Qed.
Print Assumptions C52_clear.

Theorem C52_block_empty : forall m off n P b i,
  memok m -> rep m off n P -> gdata b = off -> i < n ->
  ends_with (bits_block_empty m b i) (fun r => r = true <-> forall x, x < n -> x / 64 = i / 64 -> P x = false).
Proof. exact bits_block_empty_spec. Qed.
Print Assumptions C52_block_empty.

(** A 70-position set {0, 69} stored in the two words at offset 1 of a three-word memory. *)
Example C52_example :
  let m := [5; 0x8000000000000000; 0x0400000000000000]%N in
  memok m /\ rep m 1 70 (fun i => (i =? 0) || (i =? 69)) /\
  bits_count m (refer_from 1 70) = Ok (m, 2) /\
  bits_next m (refer_from 1 70) 1 = Ok 69 /\
  bits_clear m (refer_from 1 70) 3 = Ok [5; 0; 0x0400000000000000]%N /\
  bits_block_empty m (refer_from 1 70) 64 = Ok false.
Proof.
  cbv zeta. split; [|split; [split|split; [|split; [|split]]]].
  - repeat constructor.
  - vm_compute. repeat constructor.
  - assert (E : forallb (fun i => Bool.eqb (wbit [5; 0x8000000000000000; 0x0400000000000000]%N 1 i)
                          ((i <? 70) && ((i =? 0) || (i =? 69)))) (seq 0 (64 * words 70)) = true) by (vm_compute; reflexivity).
    intros i Hi. rewrite forallb_forall in E. apply eqb_prop. apply E. apply in_seq. split; [apply Nat.le_0_l|exact Hi].
  - vm_compute. reflexivity.
  - vm_compute. reflexivity.
  - vm_compute. reflexivity.
  - vm_compute. reflexivity.
Qed.

(** * C53: constructing a bitset performs only defined shifts: false exactly for lengths divisible by 64
    (including 0), where the source computes ALL_ONES << 64. *)
Theorem C53_shift_defined_iff_partial : forall n,
  pad_cover_strict n = if n mod 64 =? 0 then None else Some (pad_cover n).
Proof. exact pad_cover_strict_spec. Qed.
Print Assumptions C53_shift_defined_iff_partial.

Theorem C53_defined_shift_refuted : exists n, 0 < n /\ pad_cover_strict n = None.
Proof. exists 64. split; [repeat constructor|vm_compute; reflexivity]. Qed.
Print Assumptions C53_defined_shift_refuted.

Example C53_example : pad_cover_strict 70 = Some 0xFC00000000000000%N.
Proof. vm_compute. reflexivity. Qed.

(** * C54: binary search on the slice l[base .. base+n). *)
Theorem C54_find_exact : forall l base n val,
  0 < n -> base + n <= length l -> (Z.of_nat (length l) < 2 ^ 63)%Z ->
  StronglySorted lt (firstn n (skipn base l)) ->
  ends_with (binary_find l (Z.of_nat base) (Z.of_nat n) val)
    (fun r => (fst r = true <-> In val (firstn n (skipn base l)))
       /\ exists k, snd r = Z.of_nat k /\ k < n /\ (fst r = true -> nth (base + k) l 0 = val)
          /\ forall i, i < k -> nth (base + i) l 0 < val).
Proof. exact find_exact. Qed.
Print Assumptions C54_find_exact.

(** Searching on from position s (as the searches do), where everything before s is smaller than val: still exact for the whole
    slice, also when s = n leaves an empty range, and the new position is again a valid one to resume from. *)
Theorem C54_find_resume : forall l base n val s,
  0 < n -> base + n <= length l -> (Z.of_nat (length l) < 2 ^ 63)%Z ->
  StronglySorted lt (firstn n (skipn base l)) ->
  s <= n -> (forall i, i < s -> nth (base + i) l 0 < val) ->
  ends_with (binary_find l (wrap (Z.of_nat base + Z.of_nat s)) (wrap (Z.of_nat n - Z.of_nat s)) val)
    (fun r => (fst r = true <-> In val (firstn n (skipn base l)))
       /\ exists s', wrap (Z.of_nat s + snd r) = Z.of_nat s' /\ s' < n /\ forall i, i < s' -> nth (base + i) l 0 < val).
Proof. exact find_resume. Qed.
Print Assumptions C54_find_resume.

Example C54_example :
  StronglySorted lt (firstn 4 (skipn 1 [9; 2; 4; 7; 11; 3])) /\
  binary_find [9; 2; 4; 7; 11; 3] 1 4 7 = Ok (true, 2%Z) /\ binary_find [9; 2; 4; 7; 11; 3] 1 4 5 = Ok (false, 2%Z).
Proof. split; [repeat constructor|split; vm_compute; reflexivity]. Qed.

(** * C55: clean_edges sorts and removes duplicates. *)
Theorem C55_clean_edges : forall n_vert a,
  n_vert <> 0 -> (forall x, In x a -> fst x < n_vert /\ snd x < n_vert) ->
  ends_with (clean_edges n_vert a)
    (fun a' => StronglySorted (fun x y => fst x < fst y \/ (fst x = fst y /\ snd x < snd y)) a'
               /\ forall x, In x a' <-> In x a).
Proof. exact clean_edges_spec. Qed.
Print Assumptions C55_clean_edges.

Example C55_example : clean_edges 20 [(17, 2); (2, 17); (3, 3); (2, 17); (2, 1)] = Ok [(2, 1); (2, 17); (3, 3); (17, 2)].
Proof. vm_compute. reflexivity. Qed.
