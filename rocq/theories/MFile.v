(** MFile: model of detail/mmio.cpp, of from_file and to_file in core/pygraph.cpp, and of the parts of std::ifstream and
    operator<< they use (libstdc++, classic locale). A file is the list of its character codes. *)
From Verif Require Import Base MBits MUtils MGraph MHeur MEnum MApi.
Local Open Scope nat_scope.

(** An input stream: the characters not yet extracted, eofbit, failbit. *)
Record istream : Type := mkI { i_rest : list nat; i_eof : bool; i_fail : bool }.

Definition good (s : istream) : bool := negb (i_eof s) && negb (i_fail s).

(** Constructing the sentry of an input function on a stream that is not good() sets failbit. *)
Definition set_fail (s : istream) : istream := mkI (i_rest s) (i_eof s) true.

(** std::istream::peek: None is Traits::eof(). *)
Definition peek (s : istream) : istream * option nat :=
  if good s then
    match i_rest s with
    | [] => (mkI [] true false, None)
    | c :: _ => (s, Some c)
    end
  else (set_fail s, None).

(** The characters left after std::istream::ignore(k, '\n'), and whether the end was met. After [k] characters libstdc++
    still removes the delimiter if it is next. *)
Fixpoint skip_line (k : nat) (l : list nat) {struct l} : list nat * bool :=
  match l with
  | [] => ([], true)
  | c :: r =>
      if c =? 10 then (r, false)
      else match k with
           | 0 => (l, false)
           | S k' => skip_line k' r
           end
  end.

(** The argument 2048 of mmio.cpp:26 and 55 *)
Definition IGNORE : nat := N.to_nat 2048.

(** std::istream::ignore(2048, '\n') *)
Definition ignore_line (s : istream) : istream :=
  if good s then let '(r, e) := skip_line IGNORE (i_rest s) in mkI r e false
  else set_fail s.

(** std::isspace in the classic locale *)
Definition is_space (c : nat) : bool := (c =? 32) || ((9 <=? c) && (c <=? 13)).

Definition is_digit (c : nat) : bool := (48 <=? c) && (c <=? 57).

(** The white space skipped by the sentry of operator>> *)
Fixpoint skip_space (l : list nat) : list nat :=
  match l with
  | c :: r => if is_space c then skip_space r else l
  | [] => []
  end.

Definition U64_MAX : Z := 18446744073709551615%Z.

(** num_get for unsigned long: the digits; result, overflow flag, whether there was a digit, rest. Leading zeros, which
    libstdc++ skips in a loop of their own, leave the result 0. *)
Fixpoint take_digits (l : list nat) (res : Z) (ovf any : bool) : Z * bool * bool * list nat :=
  match l with
  | c :: r =>
      if is_digit c then
        let d := Z.of_nat (c - 48) in
        if (U64_MAX / 10 <? res)%Z then take_digits r res true true
        else
          let res := (res * 10)%Z in
          take_digits r (wrap (res + d)) (ovf || (U64_MAX - d <? res)%Z) true
      else (res, ovf, any, l)
  | [] => (res, ovf, any, [])
  end.

(** num_get for unsigned long, after the sentry: an optional sign, then digits. A missing number stores 0 and fails, an
    overflow stores the maximum and fails, a minus sign negates modulo 2^64. *)
Definition get_number (l : list nat) : istream * Z :=
  let '(neg, l) := match l with
                   | c :: r => if c =? 45 then (true, r) else if c =? 43 then (false, r) else (false, l)
                   | [] => (false, l)
                   end in
  let '(res, ovf, any, rest) := take_digits l 0 false false in
  let eof := match rest with [] => true | _ => false end in
  if negb any then (mkI rest eof true, 0%Z)
  else if ovf then (mkI rest eof true, U64_MAX)
  else (mkI rest eof false, if neg then wrap (- res) else res).

(** stream >> v for a u64 variable [v], whose value before is [old] (None: never initialised). If the sentry fails,
    the variable keeps its value. *)
Definition extract (s : istream) (old : option Z) : istream * option Z :=
  if good s then
    match skip_space (i_rest s) with
    | [] => (mkI [] true true, old)
    | l => let '(s, v) := get_number l in (s, Some v)
    end
  else (set_fail s, old).

(** Use of a variable *)
Definition value (v : option Z) : outcome Z := match v with Some z => Ok z | None => UB Uninit end.

(** mmio.cpp:26: the two peeks of the condition are both evaluated unless the first sees '%'. *)
Definition skip_preamble (s : istream) : outcome istream :=
  loopN (S (length (i_rest s)))
    (fun s =>
       let '(s, a) := peek s in
       if match a with Some c => c =? 37 | None => false end then Ok (Cont (ignore_line s))
       else
         let '(s, b) := peek s in
         if match b with Some c => c =? 35 | None => false end then Ok (Cont (ignore_line s))
         else Ok (Done s))
    s.

(** mmio.cpp:50-73: one turn of the edge loop; state: stream, i, j, v1, v2, Edges. The counts of ignored edges are only
    used for a message on stderr. *)
Definition read_edge (n_vert n_edges : Z) (x : istream * Z * nat * option Z * option Z * pairs)
  : outcome (step (istream * Z * nat * option Z * option Z * pairs) pairs) :=
  let '(s, i, j, v1, v2, E) := x in
  if (i <? n_edges)%Z && negb (i_eof s) then
    let '(s, v1) := extract s v1 in
    let '(s, v2) := extract s v2 in
    let s := ignore_line s in
    a <- value v1;;
    b <- value v2;;
    if (n_vert <? a)%Z || (n_vert <? b)%Z || (a =? b)%Z then
      E <- wr E j (0, 0);;
      E <- wr E (j + 1) (0, 0);;
      Ok (Cont (s, (i + 1)%Z, j + 2, Some a, Some b, E))
    else
      E <- wr E j (Z.to_nat a, Z.to_nat b);;
      E <- wr E (j + 1) (Z.to_nat b, Z.to_nat a);;
      Ok (Cont (s, (i + 1)%Z, j + 2, Some a, Some b, E))
  else Ok (Done E).

(** mmio.cpp:10-80 mmio4_reader on an opened file; result: n_vert, n_edges, Edges. A vector<u64> of 2^60 or more elements
    cannot be allocated: resize throws. *)
Definition mmio4_reader (text : list nat) : outcome (exc (Z * Z * pairs)) :=
  s <- skip_preamble (mkI text false false);;
  let '(s, n_vert) := extract s None in
  let '(s, _) := extract s None in
  let '(s, n_edges) := extract s None in
  n_edges <- value n_edges;;
  n_vert <- value n_vert;;
  let size := wrap (2 * n_edges + n_vert + 1) in
  if (1152921504606846976 <=? size)%Z then Ok (Raise EFile)
  else
    let loops := wrap (n_vert + 1) in
    if (size <? loops)%Z then UB OobWrite
    else
      E <- for_ 0 (Z.to_nat loops) (fun j E => wr E j (j, j)) (repeat (0, 0) (Z.to_nat size));;
      E <- run2 65 (read_edge n_vert n_edges) (s, 0%Z, Z.to_nat loops, None, None, E);;
      Ok (Ret (n_vert, n_edges, E)).

(** pygraph.cpp:113-124 from_file; None is a file that cannot be opened. Both vectors were resized from empty, so their
    capacity is their size. For n_vert = 2^64 - 1 the constructor's n_vert + 1 wraps to 0 and clean_edges shifts by
    2^64 - 4 (utils.cpp:118-122), which is undefined. *)
Definition from_file (file : option (list nat)) : outcome (exc pygraph) :=
  match file with
  | None => Ok (Raise EFile)
  | Some text =>
      x <- mmio4_reader text;;
      match x with
      | Raise e => Ok (Raise e)
      | Ret (n_vert, n_edges, E) =>
          match E with
          | [] => Ok (Raise ENoEdges)
          | _ =>
              if (n_vert =? U64_MAX)%Z then UB BadShift
              else
                p <- load_graph new_pygraph (Z.to_nat n_vert) (Z.to_nat n_edges) (length E) E;;
                Ok (Ret p)
          end
      end
  end.

(** operator<< of an unsigned number: decimal digits without leading zeros. *)
Fixpoint decimal_f (fuel k : nat) : list nat :=
  match fuel with
  | 0 => []
  | S f => (if k / 10 =? 0 then [] else decimal_f f (k / 10)) ++ [48 + k mod 10]
  end.

Definition decimal (k : nat) : list nat := decimal_f (S k) k.

(** pygraph.cpp:263: "%% generated by cliquematch\n" *)
Definition banner : list nat :=
  [37; 37; 32; 103; 101; 110; 101; 114; 97; 116; 101; 100; 32; 98; 121; 32; 99; 108; 105; 113; 117; 101; 109; 97; 116; 99; 104; 10].

(** pygraph.cpp:253-269 to_file: the characters written; [opens] tells whether the file can be opened. *)
Definition to_file (opens : bool) (p : pygraph) : outcome (exc (list nat)) :=
  match loaded p with
  | None => Ok (Raise ENotLoaded)
  | Some g =>
      if negb opens then Ok (Raise EFile)
      else
        calls <- send_data g;;
        Ok (Ret (banner ++ decimal (p_nvert p) ++ [32] ++ decimal (p_nvert p) ++ [32] ++ decimal (p_nedges p) ++ [10]
                 ++ flat_map (fun '(i, j) => decimal i ++ [32] ++ decimal j ++ [10]) calls))
  end.
