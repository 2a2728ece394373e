(** MNW: model of detail/nwgraph/{nwgraph.h,nwgraph.cpp,wvertex.h,wvertex.cpp,nwclique.h,nwclique.cpp,nw_dfs.cpp,
    nw_heuristic.cpp}: the node-weighted graph and its maximum-weight search.
    Simplifications. The C++ doubles (weights, degrees, bounds) are integers here, counted in units that all of them are
    multiples of (2^-1074 will do for any); the result of every sum and difference is rounded by the parameter [rnd]. There is
    no overflow to infinity and no NaN. Comparing a u64 with a double is exact (below 2^53). The members
    that nwgraph shares with graph (edge_list, edge_bits, vertices with their bitsets, search_* and n_vert) are one [graph]
    value; its field CLIQUE_LIMIT holds nwgraph::max_depth, max_degree holds nwgraph::max_neighbors and vmcs holds the local
    [depth] of set_bounds; CUR_MAX_SIZE and CUR_MAX_LOC of that value are not used. nwgraph::max_degree (a double nobody reads)
    is left out. *)
From Verif Require Import Base MBits MUtils MGraph.
Local Open Scope nat_scope.

(** nwgraph.h:13-88, wvertex.h:13-24: per vertex weight, degree (sum of weights in its row) and mcs. *)
Record nwgraph : Type := mkW {
  w_g : graph;
  w_wt : list Z;       (* vertices[i].weight *)
  w_deg : list Z;      (* vertices[i].degree *)
  w_mcs : list Z;      (* vertices[i].mcs *)
  w_limit : Z;         (* CLIQUE_LIMIT *)
  w_size : Z;          (* CUR_MAX_CLIQUE_SIZE *)
  w_loc : nat          (* CUR_MAX_CLIQUE_LOCATION *)
}.

Definition set_wg (W : nwgraph) (g : graph) : nwgraph :=
  mkW g (w_wt W) (w_deg W) (w_mcs W) (w_limit W) (w_size W) (w_loc W).

Definition set_wmem (W : nwgraph) (m : list N) : nwgraph := set_wg W (set_mem (w_g W) m).

Section Round.
Variable rnd : Z -> Z.   (* how the machine rounds the exact result of + and - *)

(** nwgraph.cpp:45-62: the weight and the degree of every vertex; weights[...] is unchecked in C++. In the source this
    happens while the row is being delimited; the row boundaries are those of [construct]. *)
Definition nw_degrees (g : graph) (weights : list Z) : outcome (list Z * list Z) :=
  for_ 0 (n_vert g)
    (fun i '(ws, ds) =>
       v <- rd (vertices g) i;;
       d <- for_ 0 (vN v)
              (fun j d => e <- rd (edge_list g) (velo v + j);; x <- rd weights e;; Ok (rnd (d + x))%Z) 0%Z;;
       x <- rd weights i;;
       Ok (ws ++ [x], ds ++ [d]))
    ([], []).

(** nwgraph.cpp:89-106: the bound of one vertex. *)
Definition nw_bound (g : graph) (ws ds : list Z) (cur : nat) : outcome Z :=
  v <- rd (vertices g) cur;;
  d <- rd ds cur;;
  let part (strict : bool) lo hi s :=
    for_ lo hi
      (fun j s =>
         e <- rd (edge_list g) (velo v + j);;
         d' <- rd ds e;;
         if (if strict then d <? d' else d <=? d')%Z then x <- rd ws e;; Ok (rnd (s + x)%Z) else Ok s) s in
  s <- part true 0 (vspos v) 0%Z;;
  part false (vspos v) (vN v) s.

(** nwgraph.cpp:83-113: all bounds, CLIQUE_LIMIT and CUR_MAX_CLIQUE_LOCATION; both start at 0. *)
Definition nw_bounds (g : graph) (ws ds : list Z) : outcome (list Z * Z * nat) :=
  for_ 0 (n_vert g)
    (fun cur '(ms, lim, loc) =>
       b <- nw_bound g ws ds cur;;
       Ok (if (lim <? b)%Z then (ms ++ [b], b, cur) else (ms ++ [b], lim, loc)))
    ([], 0%Z, 0).

(** nwgraph.cpp:28-140: constructor and set_bounds. The rows, the depth counts, max_neighbors and the search memory are
    computed by the same statements as in graph.cpp:26-140, so [construct] is used for them; the weight loops are separated
    from the counting loops (they touch different variables). *)
Definition nw_construct (n cap : nat) (edges : pairs) (weights : list Z) : outcome nwgraph :=
  g <- construct n cap edges;;
  '(ws, ds) <- nw_degrees g weights;;
  '(ms, lim, loc) <- nw_bounds g ws ds;;
  Ok (mkW g ws ds ms lim 0%Z loc).

(** nw_dfs.cpp:41-60 and nw_enumerate.cpp:37-56: mark the candidates of the root; state (memory, weights buffer,
    clique_potential). The buffer is the storage reserved for [weights] (capacity max_neighbors). *)
Definition nw_root_part (W : nwgraph) (v : vertex) (d : Z) (cand : gbits) (strict : bool) (lo hi : nat)
  (s : list N * list Z * Z) : outcome (list N * list Z * Z) :=
  for_ lo hi
    (fun j '(m, buf, pot) =>
       e <- rd (edge_list (w_g W)) (velo v + j);;
       d' <- rd (w_deg W) e;;
       if (if strict then d' <=? d else d' <? d)%Z then Ok (m, buf, pot)
       else
         m <- bits_set m cand j;;
         x <- rd (w_wt W) e;;
         buf <- wr buf j x;;
         Ok (m, buf, rnd (pot + x)%Z))
    s.

Definition nw_root_cands (W : nwgraph) (cur : nat) (v : vertex) (cand : gbits) (buf : list Z)
  : outcome (list N * list Z * Z) :=
  d <- rd (w_deg W) cur;;
  s <- nw_root_part W v d cand true 0 (vspos v) (edge_bits (w_g W), buf, 0%Z);;
  nw_root_part W v d cand false (vspos v + 1) (vN v) s.

(** nw_dfs.cpp:98-114: the candidates not adjacent to [w], how many remain, and their total weight;
    state (k, to_remove, candidates_left, cand_potential). *)
Definition nd_scan (g : graph) (v w : vertex) (cand : gbits) (buf : list Z) (k0 cl0 : nat)
  : outcome (list nat * nat * Z) :=
  loopN (S (S (vN v)))
    (fun '(k, rem, cl, pot) =>
       if (k <? vN v) && negb (cl =? 0) then
         val <- rd (edge_list g) (velo v + k);;
         '(fnd, _) <- binary_find (edge_list g) (wrap (Z.of_nat (velo w) + Z.of_nat (vspos w)))
                          (wrap (Z.of_nat (vN w) - Z.of_nat (vspos w))) val;;
         '(rem, cl, pot) <- (if (fnd : bool) then x <- rd buf k;; Ok (rem, cl, rnd (pot + x)%Z)
                             else Ok (rem ++ [k], cl - 1, pot));;
         k' <- bits_next (edge_bits g) cand (k + 1);;
         Ok (Cont (k', rem, cl, pot))
       else Ok (Done (rem, cl, pot)))
    (k0, [], cl0, 0%Z).

(** nw_dfs.cpp:128-131: store the clique [res] at vertex cur as the new best one. *)
Definition nw_record (W : nwgraph) (cur : nat) (res : gbits) (pot : Z) : outcome nwgraph :=
  let g := w_g W in
  v <- rd (vertices g) cur;;
  _ <- live g;;
  m <- bits_copy_data (edge_bits g) (vbits v) res;;
  ms <- wr (w_mcs W) cur pot;;
  Ok (mkW (set_mem g m) (w_wt W) (w_deg W) ms (w_limit W) pot cur).

(** nw_dfs.cpp:88-166: the candidate loop of the top state; state (graph, j, top state). The member potential of the states
    is only written by this search and is left out. *)
Definition nd_inner (cur : nat) (v : vertex) (cw : Z) (buf : list Z) (W : nwgraph) (j : nat) (st : sstate)
  : outcome (nwgraph * nat * sstate * Z * option sstate) :=
  loopN (S (S (vN v)))
    (fun '(W, j, st) =>
       if j <? vN v then
         let g := w_g W in
         m <- bits_reset (edge_bits g) (s_cand st) j;;
         nx <- bits_next m (s_cand st) (j + 1);;
         let st := set_start st nx in
         wj <- rd buf j;;
         '(m, cl) <- bits_count m (s_cand st);;
         let g := set_mem g m in
         e <- rd (edge_list g) (velo v + j);;
         w <- rd (vertices g) e;;
         '(rem, cl, cp) <- nd_scan g v w (s_cand st) buf nx cl;;
         let pot := rnd (rnd (cp + cw) + wj)%Z in
         let W := set_wg W g in
         if (w_size W <? pot)%Z then
           if cl =? 0 then
             m <- bits_set (edge_bits g) (s_res st) j;;
             W <- nw_record (set_wmem W m) cur (s_res st) pot;;
             m <- bits_reset (edge_bits (w_g W)) (s_res st) j;;
             Ok (Cont (set_wmem W m, nx, st))
           else
             '(g, fut) <- push_state g (words (vN v)) st j rem;;
             Ok (Done (set_wg W g, j, st, rnd (cw + wj)%Z, Some fut))
         else Ok (Cont (W, nx, st))
       else Ok (Done (W, j, st, cw, None)))
    (W, j, st).

(** nw_dfs.cpp:74-181: one turn of the main loop; state (graph, stack with the top first, clique_weight). *)
Definition nd_turn (cur : nat) (v : vertex) (buf : list Z) (s : nwgraph * list sstate * Z)
  : outcome (step (nwgraph * list sstate * Z) (nwgraph * list sstate)) :=
  let '(W, states, cw) := s in
  match states with
  | [] => Ok (Done (W, states))
  | st :: rest =>
      if (w_limit W <=? w_size W)%Z then Ok (Done (W, states))
      else
        '(m, _) <- bits_count (edge_bits (w_g W)) (s_cand st);;
        st0 <- bits_next m (s_cand st) (s_start st);;
        '(W, j, st, cw, fut) <- nd_inner cur v cw buf (set_wmem W m) st0 (set_start st st0);;
        let states := match fut with Some f => f :: st :: rest | None => st :: rest end in
        if j =? vN v then
          g <- clear_memory (w_g W) (words (vN v));;
          m <- bits_reset (edge_bits g) (s_res st) (s_id st);;
          x <- rd buf (s_id st);;
          Ok (Cont (set_wg W (set_mem g m), tl states, rnd (cw - x)%Z))
        else Ok (Cont (W, states, cw))
  end.

(** nw_dfs.cpp:25-193 process_vertex; returns the graph and the weights buffer. *)
Definition nd_process_vertex (lr : bool) (W : nwgraph) (buf : list Z) (cur : nat) : outcome (nwgraph * list Z) :=
  v <- rd (vertices (w_g W)) cur;;
  let req := words (vN v) in
  '(g, x) <- root_state lr (w_g W) v;;
  '(m, buf, pot) <- nw_root_cands (set_wg W g) cur v (s_cand x) buf;;
  let g := set_mem g m in
  wc <- rd (w_wt W) cur;;
  if (rnd (pot + wc) <=? w_size W)%Z then g <- clear_memory g (2 * req);; Ok (set_wg W g, buf)
  else
    '(W, states) <- run2 (S (S (vN v))) (nd_turn cur v buf) (set_wg W g, [x], wc);;
    g <- (match states with
          | [] => Ok (w_g W)
          | _ => clear_memory (w_g W) (req * length states)
          end);;
    g <- clear_memory g req;;
    Ok (set_wg W g, buf).

(** nw_dfs.cpp:7-23 process_graph; returns the graph and G.n_vert. weights.reserve provides max_neighbors doubles with
    indeterminate values [junk]; the code indexes that storage although weights.size() stays 0. *)
Definition nd_process_graph (lr : bool) (junk : nat -> Z) (W : nwgraph) : outcome (nwgraph * nat) :=
  let buf := map junk (seq 0 (max_degree (w_g W))) in
  '(W, buf) <- nd_process_vertex lr W buf (w_loc W);;
  '(W, buf) <- for_ 0 (n_vert (w_g W))
    (fun i '(W, buf) =>
       b <- rd (w_mcs W) i;;
       if (b <=? w_size W)%Z || (w_limit W <=? w_size W)%Z then Ok (W, buf)
       else nd_process_vertex lr W buf i) (W, buf);;
  Ok (W, n_vert (w_g W)).

(** nwclique.h:98-119 vdata; N is loaded but never used. *)
Record wdata : Type := mkWD { wd_id : nat; wd_N : nat; wd_pos : nat; wd_deg : Z }.

(** nw_heuristic.cpp:48-69: collect the neighbours; state (memory, neighbors vector, j, cand_potential). The weight added is
    that of neighbors[j].id after j++, i.e. of whatever the next entry holds. candidates_left equals j. *)
Definition nh_collect (W : nwgraph) (v : vertex) (d : Z) (cand : gbits) (strict : bool) (lo hi : nat)
  (s : list N * list wdata * nat * Z) : outcome (list N * list wdata * nat * Z) :=
  let g := w_g W in
  for_ lo hi
    (fun i '(m, nb, j, pot) =>
       e <- rd (edge_list g) (velo v + i);;
       nb <- wr nb j (mkWD e 0 i 0%Z);;
       d' <- rd (w_deg W) e;;
       if (if strict then d' <=? d else d' <? d)%Z then Ok (m, nb, j, pot)
       else
         w <- rd (vertices g) e;;
         nb <- wr nb j (mkWD e (vN w) i d');;
         m <- bits_set m cand i;;
         nxt <- rd nb (S j);;
         x <- rd (w_wt W) (wd_id nxt);;
         Ok (m, nb, S j, rnd (pot + x)%Z))
    s.

(** nw_heuristic.cpp:91-102: drop the candidates not adjacent to neighbour i; state (memory, candidates_left,
    cand_potential). *)
Definition nh_filter (W : nwgraph) (nb : list wdata) (cand : gbits) (cand_max i : nat) (m : list N) (cl : nat) (pot : Z)
  : outcome (list N * nat * Z) :=
  di <- rd nb i;;
  for_ (i + 1) cand_max
    (fun j '(m, cl, pot) =>
       dj <- rd nb j;;
       b <- bits_get m cand (wd_pos dj);;
       if negb b then Ok (m, cl, pot)
       else
         '(fnd, _) <- find_if_neighbors (w_g W) (wd_id dj) (wd_id di);;
         if (fnd : bool) then Ok (m, cl, pot)
         else
           m <- bits_reset m cand (wd_pos dj);;
           x <- rd (w_wt W) (wd_id dj);;
           Ok (m, cl - 1, rnd (pot - x)%Z))
    (m, cl, pot).

(** nw_heuristic.cpp:30-126 process_vertex; returns the graph and the neighbors vector. *)
Definition nh_process_vertex (srt : list wdata -> list wdata) (W : nwgraph) (nb : list wdata) (cur : nat)
  (res cand : gbits) : outcome (nwgraph * list wdata) :=
  v <- rd (vertices (w_g W)) cur;;
  m <- bits_clear (edge_bits (w_g W)) res (vN v);;
  m <- bits_clear m cand (vN v);;
  m <- bits_set m res (vspos v);;
  wc <- rd (w_wt W) cur;;
  d <- rd (w_deg W) cur;;
  s <- nh_collect W v d cand true 0 (vspos v) (m, nb, 0, 0%Z);;
  '(m, nb, cl, pot) <- nh_collect W v d cand false (vspos v + 1) (vN v) s;;
  let W := set_wmem W m in
  if (Z.of_nat cl <=? w_size W)%Z then Ok (W, nb)
  else
    let nb := srt (firstn cl nb) ++ skipn cl nb in
    let cand_max := cl in
    W <- loopN (S cand_max)
      (fun '(W, i, cw, cl, pot) =>
         if i <? cand_max then
           di <- rd nb i;;
           b <- bits_get (edge_bits (w_g W)) cand (wd_pos di);;
           if negb b then Ok (Cont (W, i + 1, cw, cl, pot))
           else
             m <- bits_set (edge_bits (w_g W)) res (wd_pos di);;
             x <- rd (w_wt W) (wd_id di);;
             let cw := rnd (cw + x)%Z in
             m <- bits_reset m cand (wd_pos di);;
             '(m, cl, pot) <- nh_filter W nb cand cand_max i m (cl - 1) (rnd (pot - x)%Z);;
             let W := set_wmem W m in
             if (rnd (cw + pot) <=? w_size W)%Z then Ok (Done W)
             else if cl =? 0 then
               let g := w_g W in
               v <- rd (vertices g) cur;;
               _ <- live g;;
               m <- bits_copy_data (edge_bits g) (vbits v) res;;
               Ok (Done (mkW (set_mem g m) (w_wt W) (w_deg W) (w_mcs W) (w_limit W) cw cur))
             else Ok (Cont (W, i + 1, cw, cl, pot))
         else Ok (Done W))
      (W, 0, wc, cl, pot);;
    Ok (W, nb).

(** nw_heuristic.cpp:9-28 process_graph (its return value is not used). *)
Definition nh_process_graph (srt : list wdata -> list wdata) (W : nwgraph) : outcome nwgraph :=
  let mx := max_degree (w_g W) in
  let nb := repeat (mkWD 0 0 0 0%Z) mx in
  let req := words mx in
  '(g, p1) <- load_memory (w_g W) req;;
  '(g, p2) <- load_memory g req;;
  let res := refer_from p1 mx in
  let cand := refer_from p2 mx in
  '(W, nb) <- nh_process_vertex srt (set_wg W g) nb (w_loc W) res cand;;
  '(W, nb) <- loopN (S (n_vert (w_g W)))
    (fun '(W, nb, i) =>
       if (i <? n_vert (w_g W)) && (w_size W <? w_limit W)%Z then
         b <- rd (w_mcs W) i;;
         if (b <=? w_size W)%Z then Ok (Cont (W, nb, i + 1))
         else
           '(W, nb) <- nh_process_vertex srt W nb i res cand;;
           Ok (Cont (W, nb, i + 1))
       else Ok (Done (W, nb)))
    (W, nb, 0);;
  g <- clear_memory (w_g W) (2 * req);;
  Ok (set_wg W g).
End Round.
