(** MRec: model of detail/graph/dfs_recurse.cpp (class RecursionDFS).
    The steady clock is a parameter [clk : nat -> bool]: [clk t] is the answer of the t-th evaluation of
    [G.elapsed_time() > TIME_LIMIT] since the search started. *)
From Verif Require Import Base MBits MUtils MGraph.
Local Open Scope nat_scope.

(** dfs_recurse.cpp:127-140: restrict future_cand to the neighbours of [w]; state (memory, start). *)
Definition rec_filter (g : graph) (v w : vertex) (fc : gbits) (j : nat) (m : list N) : outcome (list N) :=
  '(m, _) <- for_ (j + 1) (vN v)
    (fun k '(m, start) =>
       b <- bits_get m fc k;;
       if negb b then Ok (m, start)
       else
         val <- rd (edge_list g) (velo v + k);;
         '(fnd, ans) <- binary_find (edge_list g) (wrap (Z.of_nat (velo w) + start))
                          (wrap (Z.of_nat (vN w) - start)) val;;
         m <- (if (fnd : bool) then Ok m else bits_reset m fc k);;
         Ok (m, wrap (start + ans)))
    (m, (Z.of_nat (vspos w) + 1)%Z);;
  Ok m.

(** dfs_recurse.cpp:77-152 search_vertex; recursion on fuel. [t] counts clock readings. *)
Fixpoint rec_search (fuel : nat) (clk : nat -> bool) (cur : nat) (v : vertex) (g : graph)
  (prev_cand res : gbits) (t : nat) : outcome (graph * nat) :=
  match fuel with
  | 0 => OutOfFuel
  | S f =>
      '(m, cl) <- bits_count (edge_bits g) prev_cand;;
      '(m, rc) <- bits_count m res;;
      let g := set_mem g m in
      let pot := cl + rc in
      if clk t then Ok (g, S t)
      else if CLIQUE_LIMIT g <=? CUR_MAX_SIZE g then Ok (g, S t)
      else if pot <=? CUR_MAX_SIZE g then Ok (g, S t)
      else if cl =? 0 then g <- record_max g cur res pot;; Ok (g, S t)
      else
        let req := words (vN v) in
        '(g, p1) <- load_memory g req;;
        '(m, cand) <- bits_copy_from (edge_bits g) prev_cand p1;;
        let g := set_mem g m in
        '(g, p2) <- load_memory g req;;
        '(m, fc) <- bits_copy_from (edge_bits g) prev_cand p2;;
        let g := set_mem g m in
        '(g, t) <- for_ 0 (vN v)
          (fun j '(g, t) =>
             b <- bits_get (edge_bits g) cand j;;
             if negb b then Ok (g, t)
             else
               e <- rd (edge_list g) (velo v + j);;
               m <- bits_set (edge_bits g) res j;;
               m <- bits_reset m cand j;;
               m <- bits_copy_data m fc cand;;
               w <- rd (vertices g) e;;
               m <- rec_filter g v w fc j m;;
               '(g, t) <- rec_search f clk cur v (set_mem g m) fc res t;;
               m <- bits_reset (edge_bits g) res j;;
               Ok (set_mem g m, t))
          (g, S t);;
        g <- clear_memory g (2 * req);;
        Ok (g, t)
  end.

(** dfs_recurse.cpp:37-75 process_vertex *)
Definition rec_process_vertex (clk : nat -> bool) (g : graph) (cur t : nat) : outcome (graph * nat) :=
  v <- rd (vertices g) cur;;
  let req := words (vN v) in
  '(g, p1) <- load_memory g req;;
  '(g, p2) <- load_memory g req;;
  let res := refer_from p1 (vN v) in
  let cand := refer_from p2 (vN v) in
  m <- bits_set (edge_bits g) res (vspos v);;
  let g := set_mem g m in
  '(m, pot) <- root_cands g v cand;;
  let g := set_mem g m in
  '(g, t) <- (if CUR_MAX_SIZE g <? pot then rec_search (S (vN v)) clk cur v g cand res t else Ok (g, t));;
  g <- clear_memory g (2 * req);;
  Ok (g, t).

(** dfs_recurse.cpp:21-35 process_graph; returns the graph and the vertex where the search stopped. *)
Definition rec_process_graph (clk : nat -> bool) (start_vertex : nat) (g : graph) : outcome (graph * nat) :=
  '(g, t) <- rec_process_vertex clk g (CUR_MAX_LOC g) 0;;
  loopN (S (n_vert g - start_vertex))
    (fun '(g, i, t) =>
       if i <? n_vert g then
         v <- rd (vertices g) i;;
         if (vmcs v <=? CUR_MAX_SIZE g) || (CLIQUE_LIMIT g <=? CUR_MAX_SIZE g) then Ok (Cont (g, i + 1, t))
         else if clk t then Ok (Done (g, i))
         else
           '(g, t) <- rec_process_vertex clk g i (S t);;
           Ok (Cont (g, i + 1, t))
       else Ok (Done (g, i)))
    (g, start_vertex, t).
