(** MBits: model of detail/gbits.h and detail/gbits.cpp (class graphBits).
    A graphBits object is an offset into one shared word array ([edge_bits] of the graph), so that
    aliasing between bitsets is visible. Words are N, expected below 2^64. *)
From Verif Require Import Base.

Local Open Scope nat_scope.

(** gbits.h:41-42 *)
Definition ALL_ONES : N := 0xFFFFFFFFFFFFFFFF%N.
Definition MSB_64 : N := 0x8000000000000000%N.

Definition two64 : N := 0x10000000000000000%N.

(** u64 left shift; a count of 64 is undefined in C++, here the count is taken modulo 64 as by the
    x86-64 and AArch64 shift instructions (see [pad_cover_strict]). *)
Definition shl64 (a : N) (c : N) : N := N.modulo (N.shiftl a (N.modulo c 64)) two64.

(** gbits.h:44-53 clz, for a non-zero argument (the only use, gbits.h:141-142, guards it). *)
Definition clz (n : N) : nat := 63 - N.to_nat (N.log2 n).

(** gbits.h:58-60: data, pad_cover, valid_len. [gdata] is the index of data[0] in the shared array. *)
Record gbits : Type := mkB { gdata : nat; gpad : N; glen : nat }.

(** gbits.h:98: pad_cover = ALL_ONES << (64 - (n_bits & 0x3f)). *)
Definition pad_cover (n : nat) : N := shl64 ALL_ONES (N.of_nat (64 - n mod 64)).

(** The same expression under the C++ rule: a shift count of 64 or more is undefined. *)
Definition pad_cover_strict (n : nat) : option N :=
  if 64 - n mod 64 <? 64 then Some (N.modulo (N.shiftl ALL_ONES (N.of_nat (64 - n mod 64))) two64) else None.

(** The word count computed as (x % 64 != 0) + x / 64 everywhere (e.g. gbits.h:84, graph.cpp:65). *)
Definition words (n : nat) : nat := (if n mod 64 =? 0 then 0 else 1) + n / 64.

(** gbits.h:93-100 refer_from(ext_data, n_bits) without cleanout. *)
Definition refer_from (off n : nat) : gbits := mkB off (pad_cover n) n.

(** gbits.h:112, 124, 132: MSB_64 >> (i & 0x3f) *)
Definition bmask (i : nat) : N := N.shiftr MSB_64 (N.of_nat (i mod 64)).

(** gbits.h:110-115 *)
Definition bits_set (m : list N) (b : gbits) (i : nat) : outcome (list N) :=
  w <- rd m (gdata b + i / 64);;
  wr m (gdata b + i / 64) (N.lor w (bmask i)).

(** gbits.h:116-121; ~mask on 64 bits is N.lxor with all ones. *)
Definition bits_reset (m : list N) (b : gbits) (i : nat) : outcome (list N) :=
  w <- rd m (gdata b + i / 64);;
  wr m (gdata b + i / 64) (N.land w (N.lxor (bmask i) ALL_ONES)).

(** gbits.h:122-127 *)
Definition bits_toggle (m : list N) (b : gbits) (i : nat) : outcome (list N) :=
  w <- rd m (gdata b + i / 64);;
  wr m (gdata b + i / 64) (N.lxor w (bmask i)).

(** gbits.h:128 *)
Definition bits_block_empty (m : list N) (b : gbits) (i : nat) : outcome bool :=
  w <- rd m (gdata b + i / 64);; Ok (N.eqb w 0).

(** gbits.h:129-134 operator[] *)
Definition bits_get (m : list N) (b : gbits) (i : nat) : outcome bool :=
  w <- rd m (gdata b + i / 64);;
  Ok (negb (N.eqb (N.land w (bmask i)) 0)).

(** gbits.h:135-148 next, recursion on fuel (one unit per word visited). *)
Fixpoint bits_next_f (fuel : nat) (m : list N) (b : gbits) (i : nat) : outcome nat :=
  match fuel with
  | 0 => OutOfFuel
  | S f =>
      if i <? glen b then
        w <- rd m (gdata b + i / 64);;
        let mask := N.land w (N.shiftr ALL_ONES (N.of_nat (i mod 64))) in
        if N.eqb mask 0 then bits_next_f f m b ((i / 64 + 1) * 64)
        else Ok (i / 64 * 64 + clz mask)
      else Ok (glen b)
  end.

Definition bits_next (m : list N) (b : gbits) (i : nat) : outcome nat :=
  bits_next_f (S (S (glen b / 64))) m b i.

(** gbits.h:101-108 clear(N) *)
Definition bits_clear (m : list N) (b : gbits) (n : nat) : outcome (list N) :=
  let clear_len := 1 + n / 64 in
  let dlen := words (glen b) in
  let clear_len := if (n =? 0) || (dlen <? clear_len) then dlen else clear_len in
  for_ 0 clear_len (fun i m => wr m (gdata b + i) 0%N) m.

(** gbits.h:82-86 copy_data: std::copy of dlen(this) words, forward. *)
Definition bits_copy_data (m : list N) (dst src : gbits) : outcome (list N) :=
  for_ 0 (words (glen dst)) (fun i m => w <- rd m (gdata src + i);; wr m (gdata dst + i) w) m.

(** gbits.h:75-81 copy_from(other, ptr) *)
Definition bits_copy_from (m : list N) (src : gbits) (ptr : nat) : outcome (list N * gbits) :=
  let b := mkB ptr (gpad src) (glen src) in
  m <- bits_copy_data m b src;; Ok (m, b).

(** gbits.cpp:15-24 bitcount; additions and the subtraction are modulo 2^64. *)
Definition bitcount (n : N) : N :=
  let n := (N.modulo (n + two64 - N.land (N.shiftr n 1) 0x5555555555555555) two64)%N in
  let n := N.modulo (N.land n 0x3333333333333333 + N.land (N.shiftr n 2) 0x3333333333333333) two64 in
  let n := N.land (N.modulo (n + N.shiftr n 4) two64) 0x0f0f0f0f0f0f0f0f in
  let n := N.modulo (n + N.shiftr n 8) two64 in
  let n := N.modulo (n + N.shiftr n 16) two64 in
  let n := N.modulo (n + N.shiftr n 32) two64 in
  N.land n 0x7f.

(** data[dlen - 1] &= pad_cover, gbits.cpp:30, 40, 49, 58, 67; with dlen = 0 the index is -1. *)
Definition bits_trim (m : list N) (b : gbits) : outcome (list N) :=
  match words (glen b) with
  | 0 => UB OobWrite
  | S d => w <- rd m (gdata b + d);; wr m (gdata b + d) (N.land w (gpad b))
  end.

(** gbits.cpp:26-33 count(); it clears the padding of the last word although declared const. *)
Definition bits_count (m : list N) (b : gbits) : outcome (list N * nat) :=
  m <- bits_trim m b;;
  c <- for_ 0 (words (glen b)) (fun i c => w <- rd m (gdata b + i);; Ok (c + N.to_nat (bitcount w))) 0;;
  Ok (m, c).

(** gbits.cpp:35-69: the four in-place set operations; [f] combines two words. *)
Definition bits_op (f : N -> N -> N) (m : list N) (b other : gbits) : outcome (list N) :=
  m <- for_ 0 (words (glen b))
        (fun i m => w <- rd m (gdata b + i);; o <- rd m (gdata other + i);; wr m (gdata b + i) (f w o)) m;;
  bits_trim m b.

Definition bits_and := bits_op N.land.                                    (* gbits.cpp:35-42 *)
Definition bits_or := bits_op N.lor.                                      (* gbits.cpp:44-51 *)
Definition bits_xor := bits_op N.lxor.                                    (* gbits.cpp:53-60 *)
Definition bits_minus := bits_op (fun w o => N.land w (N.lxor o ALL_ONES)).  (* gbits.cpp:62-69 *)

(** gbits.cpp:112-125 get_subset(elements, len): [elems] is edge_list, [base] the offset of elements[0].
    The answer vector has count() zeros first; ans[ct] is written with a bounds check. *)
Definition bits_subset (m : list N) (b : gbits) (elems : list nat) (base : nat) : outcome (list N * list nat) :=
  '(m, c) <- bits_count m b;;
  '(ans, _) <- for_ 0 (glen b)
      (fun i '(ans, ct) =>
         x <- bits_get m b i;;
         if (x : bool) then e <- rd elems (base + i);; ans <- wr ans ct e;; Ok (ans, S ct)
         else Ok (ans, ct)) (repeat 0 c, 0);;
  Ok (m, ans).
