(** MApi: model of core/pygraph.cpp and core/pyiterator.{h,cpp}: the objects Python sees. *)
From Verif Require Import Base MBits MUtils MGraph MHeur MStack MRec MEnum.
Local Open Scope nat_scope.

(** core/pygraph.h members; pygraph.cpp:16-22 *)
Record pygraph : Type := mkP { p_G : option graph; p_nvert : nat; p_nedges : nat; p_cur : nat; p_done : bool }.

Definition new_pygraph : pygraph := mkP None 0 0 0 false.

Definition set_G (p : pygraph) (g : graph) : pygraph := mkP (Some g) (p_nvert p) (p_nedges p) (p_cur p) (p_done p).

(** Capacity of a std::vector after [k] push_backs (libstdc++: doubling), from capacity [cap] and size [size]. *)
Fixpoint push_cap (k cap size : nat) : nat :=
  match k with
  | 0 => cap
  | S k' => push_cap k' (if size <? cap then cap else if cap =? 0 then 1 else 2 * cap) (S size)
  end.

(** pygraph.cpp:23-30 load_graph; [cap] is the capacity of edges.first. current_vertex and finished_all are kept. *)
Definition load_graph (p : pygraph) (n m cap : nat) (edges : pairs) : outcome pygraph :=
  g <- construct n cap edges;;
  Ok (mkP (Some g) n m (p_cur p) (p_done p)).

(** pygraph.cpp:31-35 check_loaded (true when it does not throw). *)
Definition loaded (p : pygraph) : option graph :=
  match p_G p with
  | Some g => if p_nvert p =? 0 then None else Some g
  | None => None
  end.

(** pygraph.cpp:38-43; G is dereferenced unchecked. *)
Definition reset_search (p : pygraph) : outcome pygraph :=
  match p_G p with
  | None => UB NullDeref
  | Some g => Ok (mkP (Some (set_best g 1 (CUR_MAX_LOC g))) (p_nvert p) (p_nedges p) 0 false)
  end.

(** Unspecified or external behaviour a search may depend on: evaluation order of constructor arguments, std::sort, the
    clock (None: time_limit <= 0). *)
Record env : Type := mkEnv { lr_order : bool; srt_fun : list vdata -> list vdata; clock : option (nat -> bool) }.

(** clique.cpp:15-34 find_max_cliques *)
Definition find_max_cliques (e : env) (g : graph) (start : nat) (heur dfs : bool) : outcome (graph * nat) :=
  g <- (if heur then heur_process_graph (srt_fun e) g else Ok g);;
  match clock e with
  | None => if dfs then sd_process_graph (lr_order e) g else Ok (g, start)
  | Some clk => if dfs then rec_process_graph clk start g else Ok (g, start)
  end.

(** pygraph.cpp:45-68 get_max_clique *)
Definition get_max_clique (e : env) (p : pygraph) (lb ub : nat) (heur dfs cont : bool)
  : outcome (pygraph * exc (list nat)) :=
  let cur := if cont then p_cur p else 0 in
  let heur := if cont && negb (p_cur p =? 0) then false else heur in
  match loaded p with
  | None => Ok (mkP (p_G p) (p_nvert p) (p_nedges p) cur (p_done p), Raise ENotLoaded)
  | Some g =>
      let g := set_best g (if CUR_MAX_SIZE g <? lb then lb else CUR_MAX_SIZE g) (CUR_MAX_LOC g) in
      let g := set_limit g (if ub <? CLIQUE_LIMIT g then ub else CLIQUE_LIMIT g) in
      '(g, cur) <- find_max_cliques e g cur heur dfs;;
      let fin := p_nvert p <=? cur in
      '(g, ans) <- stored_clique g (CUR_MAX_LOC g);;
      let p := mkP (Some g) (p_nvert p) (p_nedges p) cur fin in
      if length ans <? lb then Ok (p, Raise EBounds) else Ok (p, Ret ans)
  end.

(** pygraph.cpp:70-89 get_correspondence2 *)
Fixpoint correspondence2 (len2 : nat) (clique : list nat) : outcome (exc (list nat * list nat)) :=
  match clique with
  | [] => Ok (Ret ([], []))
  | v :: r =>
      if v =? 0 then Ok (Raise ESentinel)
      else if len2 =? 0 then UB DivZero
      else
        x <- correspondence2 len2 r;;
        match x with
        | Ret (a, b) => Ok (Ret ((v - 1) / len2 :: a, (v - 1) mod len2 :: b))
        | Raise e => Ok (Raise e)
        end
  end.

(** pygraph.cpp:91-99 get_correspondence *)
Definition get_correspondence (e : env) (p : pygraph) (len2 lb ub : nat) (heur dfs cont : bool)
  : outcome (pygraph * exc (list nat * list nat)) :=
  '(p, r) <- get_max_clique e p lb ub heur dfs cont;;
  match r with
  | Ret c => x <- correspondence2 len2 c;; Ok (p, x)
  | Raise x => Ok (p, Raise x)
  end.

(** pygraph.cpp:102-111 showdata: the value printed after "search_done=". *)
Definition repr_search_done (p : pygraph) : bool := p_cur p <? p_nvert p.

(** The pairs appended per accepted row, pygraph.cpp:155-158. *)
Definition both_ways (u v : nat) : pairs := [(u, v); (v, u)].

(** The self loops 0..n, pygraph.cpp:137-141. *)
Definition self_loops (n : nat) : pairs := map (fun i => (i, i)) (seq 0 (n + 1)).

(** pygraph.cpp:142-159: rows are checked in order; result: edges to append, or the exception. *)
Fixpoint read_rows (n : nat) (rows : pairs) : exc pairs :=
  match rows with
  | [] => Ret []
  | (v1, v2) :: r =>
      if (n <? v1) || (n <? v2) then Raise EVertexTooBig
      else if (v1 =? 0) || (v2 =? 0) then Raise EVertexZero
      else match read_rows n r with
           | Ret l => Ret (both_ways v1 v2 ++ l)
           | Raise e => Raise e
           end
  end.

(** pygraph.cpp:126-165 from_edgelist. edges.first has n + 1 entries after resize, so the emptiness test never fires. *)
Definition from_edgelist (rows : pairs) (n : nat) : outcome (exc pygraph) :=
  match read_rows n rows with
  | Raise e => Ok (Raise e)
  | Ret l =>
      p <- load_graph new_pygraph n (length rows) (push_cap (length l) (n + 1) (n + 1)) (self_loops n ++ l);;
      Ok (Ret p)
  end.

(** pygraph.cpp:183-196: cells in row-major order; returns the edges and the number of off-diagonal entries. *)
Definition matrix_cells (n : nat) (M : nat -> nat -> bool) : pairs * nat :=
  fold_left
    (fun '(acc, cnt) '(i, j) =>
       if M i j || (i =? j) then (acc ++ both_ways (i + 1) (j + 1), cnt + (if i =? j then 0 else 1))
       else (acc, cnt))
    (list_prod (seq 0 n) (seq 0 n)) ([], 0).

(** pygraph.cpp:167-204 from_adj_matrix; the array is given by its shape and a cell function. *)
Definition from_matrix (rows cols : nat) (M : nat -> nat -> bool) : outcome (exc pygraph) :=
  if negb (rows =? cols) then Ok (Raise ENotSquare)
  else
    let '(l, cnt) := matrix_cells rows M in
    let edges := (0, 0) :: l in
    p <- load_graph new_pygraph rows (cnt / 2) (push_cap (length edges) 0 0) edges;;
    Ok (Ret p).

(** pygraph.cpp:219-228: one adjacency set (increasing list of its elements). *)
Fixpoint read_set (n i : nat) (A : list (list nat)) (s : list nat) : outcome (exc pairs) :=
  match s with
  | [] => Ok (Ret [])
  | j :: r =>
      if (j =? 0) || (n <? j) || (j =? i) then Ok (Raise EBadEdge)
      else
        back <- rd A j;;
        if negb (existsb (Nat.eqb i) back) then Ok (Raise EBadEdge)
        else
          x <- read_set n i A r;;
          match x with
          | Ret l => Ok (Ret ((i, j) :: l))
          | Raise e => Ok (Raise e)
          end
  end.

(** pygraph.cpp:215-229; also counts e. *)
Fixpoint read_sets (n i : nat) (A todo : list (list nat)) : outcome (exc (pairs * nat)) :=
  match todo with
  | [] => Ok (Ret ([], 0))
  | s :: r =>
      x <- read_set n i A s;;
      match x with
      | Raise e => Ok (Raise e)
      | Ret l =>
          y <- read_sets n (S i) A r;;
          match y with
          | Raise e => Ok (Raise e)
          | Ret (l', e) => Ok (Ret ((i, i) :: l ++ l', length l + e))
          end
      end
  end.

(** pygraph.cpp:205-233 from_adj_list. The test n_vertices != edges.size() - 1 is unsigned: an empty list gives 2^64 - 1,
    which no vertex count equals here. *)
Definition from_adjlist (n m : nat) (A : list (list nat)) : outcome (exc pygraph) :=
  match A with
  | [] => Ok (Raise ECountMismatch)
  | a0 :: _ =>
      match a0 with
      | _ :: _ => Ok (Raise ESentinelSet)
      | [] =>
          if negb (n =? length A - 1) then Ok (Raise ECountMismatch)
          else
            x <- read_sets n 0 A A;;
            match x with
            | Raise e => Ok (Raise e)
            | Ret (l, e) =>
                if negb (e / 2 =? m) then Ok (Raise EEdgeCount)
                else
                  p <- load_graph new_pygraph n m (push_cap (length l) 0 0) l;;
                  Ok (Ret p)
            end
      end
  end.

(** pygraph.cpp:235-251 to_edgelist: nedges uninitialised rows are allocated (None), then filled in send_data order;
    a row index beyond nedges is an out-of-bounds write. *)
Definition to_edgelist (p : pygraph) : outcome (exc (list (option (nat * nat)))) :=
  match loaded p with
  | None => Ok (Raise ENotLoaded)
  | Some g =>
      calls <- send_data g;;
      '(rows, _) <- foldM (fun e '(rows, k) => rows <- wr rows k (Some e);; Ok (rows, S k))
                 calls (repeat None (p_nedges p), 0);;
      Ok (Ret rows)
  end.

(** pygraph.cpp:271-291 to_adj_matrix: a flat row-major array; i - 1 or j - 1 of a zero id is out of bounds. *)
Definition to_matrix (p : pygraph) : outcome (exc (list (list bool))) :=
  match loaded p with
  | None => Ok (Raise ENotLoaded)
  | Some g =>
      calls <- send_data g;;
      let put i j (M : list (list bool)) :=
        if (i =? 0) || (j =? 0) then UB OobWrite
        else row <- rd M (i - 1);; row <- wr row (j - 1) true;; wr M (i - 1) row in
      M <- foldM (fun '(i, j) M => M <- put i j M;; put j i M) calls
             (repeat (repeat false (p_nvert p)) (p_nvert p));;
      Ok (Ret M)
  end.

(** Insertion into a std::set<u64> represented by its increasing list of elements. *)
Fixpoint set_insert (x : nat) (l : list nat) : list nat :=
  match l with
  | [] => [x]
  | y :: r => if x <? y then x :: l else if x =? y then l else y :: set_insert x r
  end.

(** pygraph.cpp:293-304 to_adj_list *)
Definition to_adjlist (p : pygraph) : outcome (exc (list (list nat))) :=
  match loaded p with
  | None => Ok (Raise ENotLoaded)
  | Some g =>
      calls <- send_data g;;
      let put i j (A : list (list nat)) := s <- rd A i;; wr A i (set_insert j s) in
      A <- foldM (fun '(i, j) A => A <- put i j A;; put j i A) calls (repeat [] (p_nvert p + 1));;
      Ok (Ret A)
  end.

(** pygraph.cpp:306-310 get_vertex_data; G is dereferenced unchecked. *)
Definition vertex_neighbors (p : pygraph) (i : nat) : outcome (exc (list nat)) :=
  if p_nvert p <? i then Ok (Raise EIndex)
  else match p_G p with
       | None => UB NullDeref
       | Some g => l <- vertex_data g i;; Ok (Ret l)
       end.

(** pyiterator.h:21-27: creating an iterator. *)
Definition all_cliques (p : pygraph) (size : nat) : exc enum :=
  match loaded p with
  | None => Raise ENotLoaded
  | Some _ => Ret (new_enum size)
  end.

(** pyiterator.cpp:8-18 next_clique *)
Definition next_clique (lr : bool) (p : pygraph) (en : enum) : outcome (pygraph * enum * exc (list nat)) :=
  match p_G p with
  | None => UB NullDeref
  | Some g =>
      '(g, en, v) <- en_process_graph lr g en;;
      if p_nvert p <? v then Ok (set_G p g, en, Raise EStopIteration)
      else '(g, c) <- stored_clique g v;; Ok (set_G p g, en, Ret c)
  end.

(** Python's list(iterator), at most [fuel] items; the iterator must end with StopIteration. *)
Fixpoint drain (fuel : nat) (lr : bool) (p : pygraph) (en : enum) : outcome (pygraph * enum * list (list nat)) :=
  match fuel with
  | 0 => OutOfFuel
  | S f =>
      '(p, en, r) <- next_clique lr p en;;
      match r with
      | Raise _ => Ok (p, en, [])
      | Ret c => '(p, en, l) <- drain f lr p en;; Ok (p, en, c :: l)
      end
  end.
