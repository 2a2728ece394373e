(** MNWApi: model of core/pynwgraph.{h,cpp} and the node-weighted iterators of core/pyiterator.{h,cpp}. *)
From Verif Require Import Base MBits MUtils MGraph MApi MNW MNWEnum.
Local Open Scope nat_scope.

(** pynwgraph.h:13-24, pynwgraph.cpp:14-20 *)
Record pynw : Type := mkQ { q_G : option nwgraph; q_nvert : nat; q_nedges : nat; q_cur : nat; q_done : bool }.

Definition new_pynw : pynw := mkQ None 0 0 0 false.

Definition set_Q (p : pynw) (W : nwgraph) : pynw := mkQ (Some W) (q_nvert p) (q_nedges p) (q_cur p) (q_done p).

Section Round.
Variable rnd : Z -> Z.   (* as in MNW *)

(** pynwgraph.cpp:21-29 load_graph *)
Definition nw_load_graph (p : pynw) (n m cap : nat) (edges : pairs) (wts : list Z) : outcome pynw :=
  W <- nw_construct rnd n cap edges wts;;
  Ok (mkQ (Some W) n m (q_cur p) (q_done p)).

(** pynwgraph.cpp:30-34 check_loaded *)
Definition nw_loaded (p : pynw) : option nwgraph :=
  match q_G p with
  | Some W => if q_nvert p =? 0 then None else Some W
  | None => None
  end.

(** pynwgraph.cpp:37-42 reset_search; G is dereferenced unchecked. *)
Definition nw_reset_search (p : pynw) : outcome pynw :=
  match q_G p with
  | None => UB NullDeref
  | Some W => Ok (mkQ (Some (mkW (w_g W) (w_wt W) (w_deg W) (w_mcs W) (w_limit W) 0%Z (w_loc W)))
                    (q_nvert p) (q_nedges p) 0 false)
  end.

(** What is not fixed by the source: evaluation order of constructor arguments, std::sort on ties, and the contents of
    freshly reserved storage. *)
Record nwenv : Type := mkNWEnv { nw_lr : bool; nw_srt : list wdata -> list wdata; nw_junk : nat -> Z }.

(** nwclique.cpp:8-15 find_max_cliques; returns the graph and start_vert. *)
Definition nw_find_max_cliques (e : nwenv) (W : nwgraph) (start : nat) (heur dfs : bool) : outcome (nwgraph * nat) :=
  W <- (if heur then nh_process_graph rnd (nw_srt e) W else Ok W);;
  if dfs then nd_process_graph rnd (nw_lr e) (nw_junk e) W else Ok (W, start).

(** nwclique.cpp:21-24 get_max_clique(i), wvertex.cpp give_clique *)
Definition nw_stored (W : nwgraph) (i : nat) : outcome (nwgraph * list nat) :=
  '(g, c) <- stored_clique (w_g W) i;;
  Ok (set_wg W g, c).

(** nwclique.cpp:25-33 get_clique_weight: ids at or above n_vert are skipped. *)
Definition nw_clique_weight (W : nwgraph) (clique : list nat) : outcome Z :=
  foldM (fun v wt => if v <? n_vert (w_g W) then x <- rd (w_wt W) v;; Ok (rnd (wt + x)%Z) else Ok wt) clique 0%Z.

(** pynwgraph.cpp:44-63 get_max_clique. current_vertex = 0 is assigned before check_loaded throws. *)
Definition nw_get_max_clique (e : nwenv) (p : pynw) (lb ub : Z) (heur dfs : bool)
  : outcome (pynw * exc (list nat)) :=
  let p0 := mkQ (q_G p) (q_nvert p) (q_nedges p) 0 (q_done p) in
  match nw_loaded p0 with
  | None => Ok (p0, Raise ENotLoaded)
  | Some W =>
      let size := if (w_size W <? lb)%Z then lb else w_size W in
      let limit := if (ub <? w_limit W)%Z then ub else w_limit W in
      let W := mkW (w_g W) (w_wt W) (w_deg W) (w_mcs W) limit size (w_loc W) in
      '(W, cur) <- nw_find_max_cliques e W 0 heur dfs;;
      '(W, ans) <- nw_stored W (w_loc W);;
      wt <- nw_clique_weight W ans;;
      let p1 := mkQ (Some W) (q_nvert p) (q_nedges p) cur (q_nvert p <=? cur) in
      Ok (p1, if (wt <? lb)%Z then Raise EBounds else Ret ans)
  end.

(** pynwgraph.cpp:65-94 get_correspondence *)
Definition nw_get_correspondence (e : nwenv) (p : pynw) (len2 : nat) (lb ub : Z) (heur dfs : bool)
  : outcome (pynw * exc (list nat * list nat)) :=
  '(p, r) <- nw_get_max_clique e p lb ub heur dfs;;
  match r with
  | Raise x => Ok (p, Raise x)
  | Ret c => x <- correspondence2 len2 c;; Ok (p, x)
  end.

(** pynwgraph.cpp:106-157 nw_from_edgelist; [weights] is the Python array. *)
Definition nw_from_edgelist (rows : pairs) (n : nat) (weights : list Z) : outcome (exc pynw) :=
  if negb (length weights =? n) then Ok (Raise ECountMismatch)
  else
    match read_rows n rows with
    | Raise e => Ok (Raise e)
    | Ret l =>
        p <- nw_load_graph new_pynw n (length rows) (push_cap (length l) (n + 1) (n + 1))
               (self_loops n ++ l) (0%Z :: weights);;
        Ok (Ret p)
    end.

(** pynwgraph.cpp:159-204 nw_from_adj_matrix *)
Definition nw_from_matrix (rows cols : nat) (M : nat -> nat -> bool) (weights : list Z) : outcome (exc pynw) :=
  if negb (rows =? cols) then Ok (Raise ENotSquare)
  else if negb (length weights =? rows) then Ok (Raise ECountMismatch)
  else
    let '(l, cnt) := matrix_cells rows M in
    let edges := (0, 0) :: l in
    p <- nw_load_graph new_pynw rows (cnt / 2) (push_cap (length edges) 0 0) edges (0%Z :: weights);;
    Ok (Ret p).

(** pynwgraph.cpp:205-235 nw_from_adj_list: the weights are passed on as they are, without an entry for vertex 0. *)
Definition nw_from_adjlist (n m : nat) (A : list (list nat)) (weights : list Z) : outcome (exc pynw) :=
  let go :=
    if negb (n + 1 =? length A) || negb (n =? length weights) then Ok (Raise ECountMismatch)
    else
      x <- read_sets n 0 A A;;
      match x with
      | Raise e => Ok (Raise e)
      | Ret (l, e) =>
          if negb (e / 2 =? m) then Ok (Raise EEdgeCount)
          else
            p <- nw_load_graph new_pynw n m (push_cap (length l) 0 0) l weights;;
            Ok (Ret p)
      end in
  match A with
  | (_ :: _) :: _ => Ok (Raise ESentinelSet)
  | _ => go
  end.

(** pynwgraph.cpp:237-288: to_edgelist, to_adj_matrix and to_adj_list are the statements of pygraph.cpp:235-304. *)
Definition nw_as_pygraph (p : pynw) : pygraph :=
  mkP (option_map w_g (q_G p)) (q_nvert p) (q_nedges p) (q_cur p) (q_done p).
Definition nw_to_edgelist (p : pynw) := to_edgelist (nw_as_pygraph p).
Definition nw_to_matrix (p : pynw) := to_matrix (nw_as_pygraph p).
Definition nw_to_adjlist (p : pynw) := to_adjlist (nw_as_pygraph p).

(** pynwgraph.cpp:290-294 get_vertex_data, nwgraph.cpp:159-167 vertex_data *)
Definition nw_vertex_data (p : pynw) (i : nat) : outcome (exc (Z * list nat)) :=
  if q_nvert p <? i then Ok (Raise EIndex)
  else match q_G p with
       | None => UB NullDeref
       | Some W => l <- vertex_data (w_g W) i;; x <- rd (w_wt W) i;; Ok (Ret (x, l))
       end.

(** pynwgraph.cpp:296-302 get_all_weights, nwgraph.cpp:169-175: the entry of vertex 0 is erased. *)
Definition nw_all_weights (p : pynw) : outcome (exc (list Z)) :=
  match nw_loaded p with
  | None => Ok (Raise ENotLoaded)
  | Some W =>
      ws <- foldM (fun i l => x <- rd (w_wt W) i;; Ok (l ++ [x])) (seq 0 (n_vert (w_g W))) [];;
      Ok (Ret (tl ws))
  end.

(** pynwgraph.cpp:304-308 get_clique_weight *)
Definition nw_get_clique_weight (p : pynw) (clique : list nat) : outcome (exc Z) :=
  match nw_loaded p with
  | None => Ok (Raise ENotLoaded)
  | Some W => wt <- nw_clique_weight W clique;; Ok (Ret wt)
  end.

(** pyiterator.h: creating a node-weighted iterator (check_loaded, then the enumerator). *)
Definition nw_all_cliques (e : nwenv) (p : pynw) (w : Z) : exc nenum :=
  match nw_loaded p with
  | None => Raise ENotLoaded
  | Some W => Ret (new_nenum (map (nw_junk e) (seq 0 (max_degree (w_g W)))) w)
  end.

(** pyiterator.cpp:32-42 NWCliqueIterator::next_clique *)
Definition nw_next_clique (lr : bool) (p : pynw) (en : nenum) : outcome (pynw * nenum * exc (list nat)) :=
  match q_G p with
  | None => UB NullDeref
  | Some W =>
      '(W, en, v) <- ne_process_graph rnd lr W en;;
      if q_nvert p <? v then Ok (set_Q p W, en, Raise EStopIteration)
      else '(W, c) <- nw_stored W v;; Ok (set_Q p W, en, Ret c)
  end.

(** Python's list(iterator), at most [fuel] items. *)
Fixpoint nw_drain (fuel : nat) (lr : bool) (p : pynw) (en : nenum) : outcome (pynw * nenum * list (list nat)) :=
  match fuel with
  | 0 => OutOfFuel
  | S f =>
      '(p, en, r) <- nw_next_clique lr p en;;
      match r with
      | Raise _ => Ok (p, en, [])
      | Ret c => '(p, en, l) <- nw_drain f lr p en;; Ok (p, en, c :: l)
      end
  end.

(** pyiterator.cpp:44-56 NWCorrespondenceIterator::next_clique; pynwgraph.cpp:65-84 get_correspondence2 is the text of
    pygraph.cpp:70-89. *)
Definition nw_next_correspondence (lr : bool) (len2 : nat) (p : pynw) (en : nenum)
  : outcome (pynw * nenum * exc (list nat * list nat)) :=
  '(p, en, r) <- nw_next_clique lr p en;;
  match r with
  | Raise e => Ok (p, en, Raise e)
  | Ret c => x <- correspondence2 len2 c;; Ok (p, en, x)
  end.
End Round.
