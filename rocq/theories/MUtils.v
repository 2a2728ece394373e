(** MUtils: model of detail/utils.h and detail/utils.cpp. *)
From Verif Require Import Base.
Local Open Scope nat_scope.

(** utils.h:27-55 binary_find on the vector [l]; the pointer [a] is &l[base], [base] and [n] are u64.
    Indices are formed modulo 2^64 (flat memory); a read that falls outside [l] is undefined.
    Result: (FOUND?, loc). 65 turns always suffice (theorem), as the range halves. *)
Fixpoint bf_loop (fuel : nat) (l : list nat) (base : Z) (val : nat) (beg fin loc : Z) : outcome (bool * Z) :=
  match fuel with
  | 0 => OutOfFuel
  | S f =>
      if (beg <=? fin)%Z then
        let loc := wrap (beg + Z.shiftr (wrap (fin - beg)) 1) in
        x <- rdz l (wrap (base + loc));;
        if x =? val then Ok (true, loc)
        else if x <? val then bf_loop f l base val (wrap (loc + 1)) fin loc
        else bf_loop f l base val beg (wrap (loc - 1)) loc
      else Ok (false, loc)
  end.

Definition binary_find (l : list nat) (base n : Z) (val : nat) : outcome (bool * Z) :=
  let fin := wrap (n - 1) in
  xe <- rdz l (wrap (base + fin));;
  if xe <? val then Ok (false, fin)
  else
    xb <- rdz l (wrap base);;
    if val <? xb then Ok (false, 0%Z)
    else bf_loop 65 l base val 0%Z fin 0%Z.

(** The parallel arrays (p0, p1) are always accessed at equal indices and have equal lengths; they are
    modelled as one list of pairs. *)
Notation pairs := (list (nat * nat)).

Definition swap {A : Type} (a : list A) (i j : nat) : outcome (list A) :=
  x <- rd a i;; y <- rd a j;; a <- wr a i y;; wr a j x.

(** utils.cpp:19-20: the comparison of entries j-1 and j. *)
Definition pair_gt (x y : nat * nat) : bool :=
  if negb (fst x =? fst y) then fst y <? fst x else snd y <? snd x.

(** utils.cpp:15-27 *)
Definition insertionSort (a : pairs) (start fin : nat) : outcome pairs :=
  for_ (start + 1) fin
    (fun i a =>
       loopN (S i)
         (fun '(j, a) =>
            if j =? start then Ok (Done a)
            else
              x <- rd a (j - 1);; y <- rd a j;;
              if pair_gt x y then a <- swap a j (j - 1);; Ok (Cont (j - 1, a))
              else Ok (Done a))
         (i, a))
    a.

(** utils.cpp:43, 55: (p[i] >> shift) & 0xF with p = key_first ? p0 : p1 *)
Definition digit (kf : bool) (shift : nat) (x : nat * nat) : nat :=
  Nat.land (Nat.shiftr (if kf then fst x else snd x) shift) 15.

(** utils.cpp:43: ends[digit]++ over [start, end) *)
Definition rs_count (a : pairs) (start fin shift : nat) (kf : bool) : outcome (list nat) :=
  for_ start fin
    (fun i ends => x <- rd a i;; let d := digit kf shift x in c <- rd ends d;; wr ends d (S c))
    (repeat 0 16).

(** utils.cpp:44-50 *)
Definition rs_offsets (start : nat) (ends : list nat) : outcome (list nat * list nat) :=
  e0 <- rd ends 0;;
  ends <- wr ends 0 (e0 + start);;
  starts <- wr (repeat 0 16) 0 start;;
  for_ 1 16
    (fun i '(starts, ends) =>
       p <- rd ends (i - 1);; e <- rd ends i;;
       starts <- wr starts i p;; ends <- wr ends i (e + p);;
       Ok (starts, ends))
    (starts, ends).

(** utils.cpp:52-66: the in-place permutation into 16 bins. *)
Definition rs_permute (a : pairs) (len shift : nat) (kf : bool) (starts ends : list nat) : outcome pairs :=
  '(a, _) <- for_ 0 16
    (fun i '(a, starts) =>
       s <- rd starts i;; e <- rd ends i;;
       loopN (S (2 * len))
         (fun '(j, a, starts) =>
            if j <? e then
              x <- rd a j;;
              let k := digit kf shift x in
              if k =? i then Ok (Cont (S j, a, starts))
              else
                t <- rd starts k;;
                a <- swap a j t;;
                starts <- wr starts k (S t);;
                Ok (Cont (j, a, starts))
            else Ok (Done (a, starts)))
         (s, a, starts))
    (a, starts);;
  Ok a.

(** utils.cpp:35-90; recursion on fuel, one unit per level. *)
Fixpoint radixSort (fuel : nat) (a : pairs) (start fin shift : nat) (kf : bool) (max_shift : nat) : outcome pairs :=
  match fuel with
  | 0 => OutOfFuel
  | S f =>
      ends <- rs_count a start fin shift kf;;
      '(starts, ends) <- rs_offsets start ends;;
      a <- rs_permute a (fin - start) shift kf starts ends;;
      if (shift =? 0) && negb kf then Ok a
      else
        let shift' := if shift =? 0 then max_shift else shift - 4 in
        let kf' := if shift =? 0 then false else kf in
        for_ 0 16
          (fun i a =>
             s <- (if i =? 0 then Ok start else rd ends (i - 1));;
             e <- rd ends i;;
             if e <=? s then Ok a
             else if e - s <=? 32 then insertionSort a s e
             else radixSort f a s e shift' kf' max_shift)
          a
  end.

(** utils.cpp:96-110; returns the array and the new length. *)
Definition modUnique (a : pairs) (start fin : nat) : outcome (pairs * nat) :=
  if start =? fin then Ok (a, fin)
  else
    '(a, result) <- for_ (S start) fin
      (fun s '(a, result) =>
         x <- rd a result;; y <- rd a s;;
         if negb (fst x =? fst y) || negb (snd x =? snd y) then
           let result := S result in
           if negb (result =? s) then a <- wr a result y;; Ok (a, result) else Ok (a, result)
         else Ok (a, result))
      (a, start);;
    Ok (a, S result).

(** utils.cpp:118-119: for (; m != 0; m >>= 4) radix_shift += 4. *)
Fixpoint hex_digits (fuel m : nat) : nat :=
  match fuel with
  | 0 => 0
  | S f => if m =? 0 then 0 else S (hex_digits f (Nat.shiftr m 4))
  end.

(** utils.cpp:116-126. Shrinking resize keeps the first m entries (and the capacity). *)
Definition clean_edges (n_vert : nat) (a : pairs) : outcome pairs :=
  let d := hex_digits n_vert n_vert in
  let radix_shift := 4 * d - 4 in
  a <- radixSort (2 * d) a 0 (length a) radix_shift true radix_shift;;
  '(a, m) <- modUnique a 0 (length a);;
  Ok (firstn m a).
