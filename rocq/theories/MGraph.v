(** MGraph: model of detail/graph/vertex.{h,cpp}, graph.{h,cpp}, searchstate.h and the accessors of clique.cpp. *)
From Verif Require Import Base MBits MUtils.
Local Open Scope nat_scope.

(** vertex.h:29-71. *)
Record vertex : Type := mkV {
  vN : nat;       (* neighbours + 1 *)
  vspos : nat;    (* own position in the neighbour list *)
  velo : nat;     (* edge_list offset *)
  vebo : nat;     (* edge_bits offset *)
  vmcs : nat;     (* clique size bound *)
  vbits : gbits   (* stored clique *)
}.

Definition set_mcs (v : vertex) (m : nat) : vertex := mkV (vN v) (vspos v) (velo v) (vebo v) m (vbits v).

(** graph.h:45-107. The timer is modelled at the call sites (see MRec). [bits_live] is model-only: false once
    edge_bits has been reallocated after the vertices took raw pointers into it. *)
Record graph : Type := mkG {
  edge_list : list nat;
  edge_bits : list N;
  vertices : list vertex;
  el_size : nat;
  eb_size : nat;
  search_start : nat;
  search_cur : nat;
  search_end : nat;
  n_vert : nat;
  max_degree : nat;
  CLIQUE_LIMIT : nat;
  CUR_MAX_SIZE : nat;
  CUR_MAX_LOC : nat;
  bits_live : bool
}.

Definition set_mem (g : graph) (m : list N) : graph :=
  mkG (edge_list g) m (vertices g) (el_size g) (eb_size g) (search_start g) (search_cur g) (search_end g)
      (n_vert g) (max_degree g) (CLIQUE_LIMIT g) (CUR_MAX_SIZE g) (CUR_MAX_LOC g) (bits_live g).

Definition set_cur (g : graph) (c : nat) : graph :=
  mkG (edge_list g) (edge_bits g) (vertices g) (el_size g) (eb_size g) (search_start g) c (search_end g)
      (n_vert g) (max_degree g) (CLIQUE_LIMIT g) (CUR_MAX_SIZE g) (CUR_MAX_LOC g) (bits_live g).

Definition set_vertices (g : graph) (vs : list vertex) : graph :=
  mkG (edge_list g) (edge_bits g) vs (el_size g) (eb_size g) (search_start g) (search_cur g) (search_end g)
      (n_vert g) (max_degree g) (CLIQUE_LIMIT g) (CUR_MAX_SIZE g) (CUR_MAX_LOC g) (bits_live g).

Definition set_best (g : graph) (size loc : nat) : graph :=
  mkG (edge_list g) (edge_bits g) (vertices g) (el_size g) (eb_size g) (search_start g) (search_cur g) (search_end g)
      (n_vert g) (max_degree g) (CLIQUE_LIMIT g) size loc (bits_live g).

Definition set_limit (g : graph) (l : nat) : graph :=
  mkG (edge_list g) (edge_bits g) (vertices g) (el_size g) (eb_size g) (search_start g) (search_cur g) (search_end g)
      (n_vert g) (max_degree g) l (CUR_MAX_SIZE g) (CUR_MAX_LOC g) (bits_live g).

(** graph.h:56-70 load_memory: returns the offset of the block. edge_bits[search_cur] must exist. *)
Definition load_memory (g : graph) (n : nat) : outcome (graph * nat) :=
  if search_cur g <? length (edge_bits g) then Ok (set_cur g (search_cur g + n), search_cur g)
  else UB OobRead.

(** graph.h:71-75 clear_memory. A wrapped search_cur would index far outside, hence undefined. *)
Definition clear_memory (g : graph) (n : nat) : outcome graph :=
  if search_cur g <? n then UB OobWrite
  else
    let c := search_cur g - n in
    m <- for_ 0 n (fun i m => wr m (c + i) 0%N) (edge_bits g);;
    Ok (set_cur (set_mem g m) c).

(** Any access through vertices[i].bits. *)
Definition live (g : graph) : outcome unit := if bits_live g then Ok tt else UB Dangling.

(** graph.h:88-93 *)
Definition find_if_neighbors (g : graph) (v1 v2 : nat) : outcome (bool * Z) :=
  v <- rd (vertices g) v1;;
  binary_find (edge_list g) (Z.of_nat (velo v)) (Z.of_nat (vN v)) v2.

(** graph.cpp:53-60: the run of entries of vertex i; returns its length, the zeroed bits and spos. *)
Definition scan_vertex (el : list nat) (bits : list N) (el_size i : nat) : outcome (nat * list N * nat) :=
  loopN (S (length el))
    (fun '(j, bits, spos) =>
       if el_size + j <? length el then
         w <- rd bits (el_size + j);;
         if N.eqb w (N.of_nat i) then
           bits <- wr bits (el_size + j) 0%N;;
           e <- rd el (el_size + j);;
           Ok (Cont (S j, bits, if e =? i then j else spos))
         else Ok (Done (j, bits, spos))
       else Ok (Done (j, bits, spos)))
    (0, bits, 0).

(** graph.cpp:26-69 and vertex.h:48-63 (refer_from, set_spos). The vertices are produced in index order.
    State: vertices so far, edge_bits, el_size, eb_size, max_degree. *)
Definition build_vertices (n_vert : nat) (el : list nat) (bits : list N)
  : outcome (list vertex * list N * nat * nat * nat) :=
  for_ 0 n_vert
    (fun i '(vs, bits, els, ebs, maxd) =>
       '(j, bits, spos) <- scan_vertex el bits els i;;
       let b := refer_from ebs j in
       bits <- bits_set bits b spos;;
       Ok (vs ++ [mkV j spos els ebs 1 b], bits, els + j, ebs + words j, if maxd <? j then j else maxd))
    ([], bits, 0, 0, 0).

(** graph.cpp:89-106: the clique size bound of one vertex. *)
Definition vertex_bound (el : list nat) (vs : list vertex) (v : vertex) : outcome nat :=
  mcs <- for_ 0 (vspos v)
    (fun j mcs => e <- rd el (velo v + j);; w <- rd vs e;;
                  Ok (mcs + (if vN v <? vN w then 1 else 0))) 0;;
  for_ (vspos v) (vN v)
    (fun j mcs => e <- rd el (velo v + j);; w <- rd vs e;;
                  Ok (mcs + (if vN v <=? vN w then 1 else 0))) mcs.

(** graph.cpp:80-112: bounds of all vertices; returns vertices, CLIQUE_LIMIT, CUR_MAX_CLIQUE_LOCATION. *)
Definition all_bounds (el : list nat) (vs : list vertex) : outcome (list vertex * nat * nat) :=
  for_ 0 (length vs)
    (fun cur '(vs, lim, loc) =>
       v <- rd vs cur;;
       mcs <- vertex_bound el vs v;;
       vs <- wr vs cur (set_mcs v mcs);;
       if lim <? mcs then Ok (vs, mcs, cur) else Ok (vs, lim, loc))
    (vs, 0, 0).

(** graph.cpp:114-138: ensure enough scratch memory. [cap] is the capacity of edge_bits; resizing beyond it
    reallocates and leaves the vertices' raw pointers dangling. *)
Definition ensure_space (cap : nat) (g : graph) : graph :=
  let sps := words (max_degree g) in
  let spread := wrap (Z.of_nat (search_end g) - Z.of_nat (search_start g)) in
  let max_space := 2 * (CLIQUE_LIMIT g + 1) * sps in
  if (spread <? Z.of_nat (max_space + 1))%Z then
    let size := eb_size g + max_space + 1 in
    let bits := firstn size (edge_bits g) ++ repeat 0%N (size - length (edge_bits g)) in
    mkG (edge_list g) bits (vertices g) (el_size g) (eb_size g) (search_start g) (search_cur g) size
        (n_vert g) (max_degree g) (CLIQUE_LIMIT g) (CUR_MAX_SIZE g) (CUR_MAX_LOC g)
        (size <=? cap)
  else g.

(** graph.cpp:26-74 graph(n_vert, n_edges, edges); n_edges is not used by the constructor.
    [cap] is the capacity of edges.first, which becomes edge_bits by swap. *)
Definition construct (n cap : nat) (edges : pairs) : outcome graph :=
  a <- clean_edges (n + 1) edges;;
  let el := map snd a in
  let bits := map (fun p => N.of_nat (fst p)) a in
  '(vs, bits, els, ebs, maxd) <- build_vertices (n + 1) el bits;;
  '(vs, lim, loc) <- all_bounds el vs;;
  let start := 1 + ebs in
  Ok (ensure_space cap
        (mkG el bits vs els ebs start start (length bits) (n + 1) maxd lim 0 loc true)).

(** clique.cpp:40-43 and vertex.cpp:28-31: the clique stored at vertex i. count() writes to the bitset's padding. *)
Definition stored_clique (g : graph) (i : nat) : outcome (graph * list nat) :=
  v <- rd (vertices g) i;;
  _ <- live g;;
  '(m, c) <- bits_subset (edge_bits g) (vbits v) (edge_list g) (velo v);;
  Ok (set_mem g m, c).

(** graph.cpp:148-155 send_data: the sequence of calls dfunc(i, j). *)
Definition send_data (g : graph) : outcome (list (nat * nat)) :=
  for_ 0 (n_vert g)
    (fun i acc =>
       v <- rd (vertices g) i;;
       for_ (vspos v + 1) (vN v)
         (fun k acc => e <- rd (edge_list g) (velo v + k);; Ok (acc ++ [(i, e)])) acc)
    [].

(** graph.cpp:158-165 vertex_data: the neighbour list without the vertex itself; std::set is modelled by the
    (increasing) list of its elements. erase(end()) is undefined if i is not in its own list. *)
Definition vertex_data (g : graph) (i : nat) : outcome (list nat) :=
  v <- rd (vertices g) i;;
  l <- for_ 0 (vN v) (fun k acc => e <- rd (edge_list g) (velo v + k);; Ok (acc ++ [e])) [];;
  if existsb (Nat.eqb i) l then Ok (filter (fun x => negb (x =? i)) l) else UB OobRead.

(** searchstate.h:23-50. [s_start] is start_at. *)
Record sstate : Type := mkS { s_id : nat; s_start : nat; s_res : gbits; s_cand : gbits }.

Definition set_start (s : sstate) (k : nat) : sstate := mkS (s_id s) k (s_res s) (s_cand s).

(** dfs_stack.cpp:44-48, enumerate.cpp:41-46 and searchstate.h:31-35: SearchState x(vertex, load, load).
    The two load_memory calls are arguments of one call, so their order is unspecified: [lr] = left to right. *)
Definition root_state (lr : bool) (g : graph) (v : vertex) : outcome (graph * sstate) :=
  let req := words (vN v) in
  '(g, p1) <- load_memory g req;;
  '(g, p2) <- load_memory g req;;
  let rp := if lr then p1 else p2 in
  let cp := if lr then p2 else p1 in
  let st := mkS (vspos v) 0 (refer_from rp (vN v)) (refer_from cp (vN v)) in
  m <- bits_set (edge_bits g) (s_res st) (vspos v);;
  Ok (set_mem g m, st).

(** dfs_stack.cpp:49-73, dfs_recurse.cpp:46-70, enumerate.cpp:47-71 (identical text): mark the candidates of the
    root; returns memory and clique_potential. *)
Definition root_cands (g : graph) (v : vertex) (cand : gbits) : outcome (list N * nat) :=
  st <- for_ 0 (vspos v)
    (fun j '(m, pot) =>
       e <- rd (edge_list g) (velo v + j);; w <- rd (vertices g) e;;
       if vN w <=? vN v then Ok (m, pot)
       else m <- bits_set m cand j;; Ok (m, S pot))
    (edge_bits g, 1);;
  for_ (vspos v + 1) (vN v)
    (fun j '(m, pot) =>
       e <- rd (edge_list g) (velo v + j);; w <- rd (vertices g) e;;
       if vN w <? vN v then Ok (m, pot)
       else m <- bits_set m cand j;; Ok (m, S pot))
    st.

(** dfs_stack.cpp:143-146, dfs_recurse.cpp:96-99: store the clique [res] at vertex cur as the new maximum. *)
Definition record_max (g : graph) (cur : nat) (res : gbits) (size : nat) : outcome graph :=
  v <- rd (vertices g) cur;;
  _ <- live g;;
  m <- bits_copy_data (edge_bits g) (vbits v) res;;
  vs <- wr (vertices g) cur (set_mcs v size);;
  Ok (set_best (set_vertices (set_mem g m) vs) size cur).

(** searchstate.h:40-49 SearchState(j) followed by refer_from(load_memory(req), cand, res), then the removal loop
    (dfs_stack.cpp:154-163, enumerate.cpp:183-192). *)
Definition push_state (g : graph) (req : nat) (st : sstate) (j : nat) (to_remove : list nat) : outcome (graph * sstate) :=
  '(g, p) <- load_memory g req;;
  '(m, cand) <- bits_copy_from (edge_bits g) (s_cand st) p;;
  m <- bits_set m (s_res st) j;;
  m <- foldM (fun k m => bits_reset m cand k) to_remove m;;
  Ok (set_mem g m, mkS j j (s_res st) cand).
