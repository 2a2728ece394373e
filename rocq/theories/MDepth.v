(** MDepth: get_max_clique when at most [D] calls of RecursionDFS::search_vertex (dfs_recurse.cpp:77-152) can be active at the
    same time, as on a call stack with room for [D] of them. A call that finds no room is [OutOfFuel]. *)
From Verif Require Import Base MBits MUtils MGraph MHeur MStack MRec MApi.
Local Open Scope nat_scope.

(** dfs_recurse.cpp:37-75 process_vertex *)
Definition rec_vertex_within (D : nat) (clk : nat -> bool) (g : graph) (cur t : nat) : outcome (graph * nat) :=
  v <- rd (vertices g) cur;;
  let req := words (vN v) in
  '(g, p1) <- load_memory g req;;
  '(g, p2) <- load_memory g req;;
  let res := refer_from p1 (vN v) in
  let cand := refer_from p2 (vN v) in
  m <- bits_set (edge_bits g) res (vspos v);;
  let g := set_mem g m in
  '(m, pot) <- root_cands g v cand;;
  let g := set_mem g m in
  '(g, t) <- (if CUR_MAX_SIZE g <? pot then rec_search D clk cur v g cand res t else Ok (g, t));;
  g <- clear_memory g (2 * req);;
  Ok (g, t).

(** dfs_recurse.cpp:21-35 process_graph *)
Definition rec_graph_within (D : nat) (clk : nat -> bool) (start_vertex : nat) (g : graph) : outcome (graph * nat) :=
  '(g, t) <- rec_vertex_within D clk g (CUR_MAX_LOC g) 0;;
  loopN (S (n_vert g - start_vertex))
    (fun '(g, i, t) =>
       if i <? n_vert g then
         v <- rd (vertices g) i;;
         if (vmcs v <=? CUR_MAX_SIZE g) || (CLIQUE_LIMIT g <=? CUR_MAX_SIZE g) then Ok (Cont (g, i + 1, t))
         else if clk t then Ok (Done (g, i))
         else
           '(g, t) <- rec_vertex_within D clk g i (S t);;
           Ok (Cont (g, i + 1, t))
       else Ok (Done (g, i)))
    (g, start_vertex, t).

(** clique.cpp:15-34 find_max_cliques *)
Definition find_max_within (D : nat) (e : env) (g : graph) (start : nat) (heur dfs : bool) : outcome (graph * nat) :=
  g <- (if heur then heur_process_graph (srt_fun e) g else Ok g);;
  match clock e with
  | None => if dfs then sd_process_graph (lr_order e) g else Ok (g, start)
  | Some clk => if dfs then rec_graph_within D clk start g else Ok (g, start)
  end.

(** pygraph.cpp:45-68 get_max_clique *)
Definition get_max_within (D : nat) (e : env) (p : pygraph) (lb ub : nat) (heur dfs cont : bool)
  : outcome (pygraph * exc (list nat)) :=
  let cur := if cont then p_cur p else 0 in
  let heur := if cont && negb (p_cur p =? 0) then false else heur in
  match loaded p with
  | None => Ok (mkP (p_G p) (p_nvert p) (p_nedges p) cur (p_done p), Raise ENotLoaded)
  | Some g =>
      let g := set_best g (if CUR_MAX_SIZE g <? lb then lb else CUR_MAX_SIZE g) (CUR_MAX_LOC g) in
      let g := set_limit g (if ub <? CLIQUE_LIMIT g then ub else CLIQUE_LIMIT g) in
      '(g, cur) <- find_max_within D e g cur heur dfs;;
      let fin := p_nvert p <=? cur in
      '(g, ans) <- stored_clique g (CUR_MAX_LOC g);;
      let p := mkP (Some g) (p_nvert p) (p_nedges p) cur fin in
      if length ans <? lb then Ok (p, Raise EBounds) else Ok (p, Ret ans)
  end.
