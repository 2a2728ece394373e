(** Spec: graphs, cliques and what the input formats denote, independently of the model. No proofs here. *)
From Coq Require Export Sorting.Sorted Sorting.Permutation.
From Verif Require Import Base MUtils MGraph MHeur MEnum MApi MExt MFile.
Local Open Scope nat_scope.

(** A simple undirected graph on the vertices 1..n. *)
Definition simple (n : nat) (adj : nat -> nat -> Prop) : Prop :=
  forall u v, adj u v -> adj v u /\ u <> v /\ 1 <= u <= n.

(** What an edge list, a boolean matrix (0-based cells) and a family of adjacency sets denote. *)
Definition adj_rows (rows : list (nat * nat)) (u v : nat) : Prop := u <> v /\ (In (u, v) rows \/ In (v, u) rows).
Definition adj_matrix (n : nat) (M : nat -> nat -> bool) (u v : nat) : Prop :=
  u <> v /\ 1 <= u <= n /\ 1 <= v <= n /\ (M (u - 1) (v - 1) = true \/ M (v - 1) (u - 1) = true).
Definition adj_sets (A : list (list nat)) (u v : nat) : Prop := In v (nth u A []).

(** Well-formed arguments. A std::set<u64> is the increasing list of its elements. *)
Definition rows_ok (n : nat) (rows : list (nat * nat)) : Prop :=
  forall u v, In (u, v) rows -> 1 <= u <= n /\ 1 <= v <= n.
Definition sets_ok (n m : nat) (A : list (list nat)) : Prop :=
  length A = n + 1 /\ nth 0 A [] = []
  /\ (forall i j, In j (nth i A []) -> 1 <= j <= n /\ j <> i /\ In i (nth j A []))
  /\ list_sum (map (@length nat) A) / 2 = m.
Definition real_sets (A : list (list nat)) : Prop := Forall (StronglySorted lt) A.

(** No row is a self loop, and no two rows name the same pair, in whatever order. *)
Definition distinct_rows (rows : list (nat * nat)) : Prop :=
  NoDup (map (fun x => (Nat.min (fst x) (snd x), Nat.max (fst x) (snd x))) rows) /\ forall u, ~ In (u, u) rows.

(** A set of pairwise adjacent vertices, listed in increasing order. *)
Definition clique (n : nat) (adj : nat -> nat -> Prop) (c : list nat) : Prop :=
  StronglySorted lt c /\ (forall v, In v c -> 1 <= v <= n) /\ (forall u v, In u c -> In v c -> u <> v -> adj u v).

Definition maximum_clique (n : nat) (adj : nat -> nat -> Prop) (c : list nat) : Prop :=
  clique n adj c /\ forall d, clique n adj d -> length d <= length c.

(** [l] lists each undirected edge once, as an increasing pair. *)
Definition edges_of (adj : nat -> nat -> Prop) (l : list (nat * nat)) : Prop :=
  NoDup l /\ forall u v, In (u, v) l <-> u < v /\ adj u v.

Definition lexless (x y : nat * nat) : Prop := fst x < fst y \/ (fst x = fst y /\ snd x < snd y).

(** Container sizes stay below 2^63 (the largest std::vector<u64> a 64-bit machine can hold has fewer elements). *)
Definition fits (k : nat) : Prop := (Z.of_nat k < 2 ^ 63)%Z.

(** ** Matrix Market files: lists of character codes *)

Definition newline : nat := 10.
Definition blank (c : nat) : Prop := c = 32 \/ 9 <= c <= 13.
Definition digit_char (c : nat) : Prop := 48 <= c <= 57.

(** [s] is a decimal representation (leading zeros allowed) of the u64 [k]. *)
Definition numeral (s : list nat) (k : nat) : Prop :=
  s <> [] /\ Forall digit_char s /\ fold_left (fun v c => 10 * v + (c - 48)) s 0 = k /\ (Z.of_nat k < 2 ^ 64)%Z.

(** White space between two numbers *)
Definition gap (s : list nat) : Prop := s <> [] /\ Forall blank s.

(** Whatever stands on a line after the numbers: it does not extend the last number and is not overlong. *)
Definition trailer (s : list nat) : Prop :=
  ~ In newline s /\ (Z.of_nat (length s) <= 2048)%Z /\ match s with c :: _ => ~ digit_char c | [] => True end.

(** A line starting with % or #, of at most 2048 characters *)
Definition comment (s : list nat) : Prop :=
  exists c r, s = c :: r ++ [newline] /\ (c = 37 \/ c = 35) /\ ~ In newline r /\ (Z.of_nat (length r) < 2048)%Z.

(** The edge lines, followed by anything. The last one may end with the file. *)
Inductive edge_lines : list (nat * nat) -> list nat -> Prop :=
| el_none rest : edge_lines [] rest
| el_last pre s1 g s2 t u v : Forall blank pre -> numeral s1 u -> gap g -> numeral s2 v -> trailer t ->
    edge_lines [(u, v)] (pre ++ s1 ++ g ++ s2 ++ t)
| el_line pre s1 g s2 t u v rows rest : Forall blank pre -> numeral s1 u -> gap g -> numeral s2 v -> trailer t ->
    edge_lines rows rest -> edge_lines ((u, v) :: rows) (pre ++ s1 ++ g ++ s2 ++ t ++ newline :: rest).

(** [header text n m body]: comment lines, then the numbers "n _ m", then [body]. *)
Definition header (text : list nat) (n m : nat) (body : list nat) : Prop :=
  exists cs pre s1 g1 s2 g2 s3 n',
    text = concat cs ++ pre ++ s1 ++ g1 ++ s2 ++ g2 ++ s3 ++ body
    /\ Forall comment cs /\ Forall blank pre /\ numeral s1 n /\ gap g1 /\ numeral s2 n' /\ gap g2 /\ numeral s3 m
    /\ match body with c :: _ => ~ digit_char c | [] => True end.

(** [market text n rows]: a header declaring as many edges as there are edge lines, then the edge lines. *)
Definition market (text : list nat) (n : nat) (rows : list (nat * nat)) : Prop :=
  exists body, header text n (length rows) body /\ edge_lines rows body.

(** The edges of a file: lines naming two distinct vertices of 1..n. *)
Definition adj_lines (n : nat) (rows : list (nat * nat)) (u v : nat) : Prop :=
  u <> v /\ 1 <= u <= n /\ 1 <= v <= n /\ (In (u, v) rows \/ In (v, u) rows).

(** No line joins the non-existent vertex 0 to another vertex. *)
Definition no_zero (n : nat) (rows : list (nat * nat)) : Prop :=
  forall v, 1 <= v <= n -> ~ In (0, v) rows /\ ~ In (v, 0) rows.

(** A std::vector<u64> of this size can be allocated. *)
Definition allocatable (k : nat) : Prop := (Z.of_nat k < 2 ^ 60)%Z.

(** [made p n adj]: [p] is a freshly loaded Graph whose input denotes the graph [adj] on 1..n. *)
Inductive made : pygraph -> nat -> (nat -> nat -> Prop) -> Prop :=
| made_edgelist rows n p :
    fits (n + 1 + 2 * length rows) -> from_edgelist rows n = Ok (Ret p) -> made p n (adj_rows rows)
| made_matrix n M p :
    fits (1 + 2 * (n * n)) -> from_matrix n n M = Ok (Ret p) -> made p n (adj_matrix n M)
| made_adjlist n m A p :
    fits (length A + list_sum (map (@length nat) A)) -> real_sets A ->
    from_adjlist n m A = Ok (Ret p) -> made p n (adj_sets A)
| made_rows rows n p :   (* a correspondence graph: the build functions end in load_rows, with whatever pairs they collected *)
    fits (n + 1 + 2 * length rows) -> rows_ok n rows ->
    load_rows new_pygraph n rows = Ok p -> made p n (adj_rows rows)
| made_file text n rows p :
    allocatable (n + 1 + 2 * length rows) -> market text n rows -> no_zero n rows ->
    from_file (Some text) = Ok (Ret p) -> made p n (adj_lines n rows).

(** A graph object with the model-only flag [bits_live] masked. *)
Definition forget_live (g : graph) : graph :=
  mkG (edge_list g) (edge_bits g) (vertices g) (el_size g) (eb_size g) (search_start g) (search_cur g) (search_end g)
      (n_vert g) (max_degree g) (CLIQUE_LIMIT g) (CUR_MAX_SIZE g) (CUR_MAX_LOC g) true.

(** The graph has an edge. *)
Definition has_edge (adj : nat -> nat -> Prop) : Prop := exists u v, adj u v.

(** The clique bitsets of the vertices still point into live storage (C13). *)
Definition storage_live (p : pygraph) : Prop := exists g, p_G p = Some g /\ bits_live g = true.

(** The answer of a call, without the object it leaves behind. *)
Definition answer {O A : Type} (o : outcome (O * A)) : outcome A :=
  match o with Ok (_, a) => Ok a | UB u => UB u | OutOfFuel => OutOfFuel end.

(** The default upper_bound of get_max_clique (core/wrap_pygraph.cpp:29). *)
Definition DEFAULT_UB : nat := N.to_nat 65535.

(** ** The environment of a search *)

(** std::sort rearranges its range (in whatever order ties may fall). *)
Definition permutes (e : env) : Prop := forall l, Permutation (srt_fun e l) l.

(** std::sort with std::greater<vdata>: the range rearranged in decreasing order of degree. *)
Definition sorts (e : env) : Prop := permutes e /\ forall l, StronglySorted (fun x y => d_N y <= d_N x) (srt_fun e l).

Definition untimed (e : env) : Prop := clock e = None.

(** The elapsed time never exceeds the limit. *)
Definition never_late (e : env) : Prop := match clock e with None => True | Some clk => forall k, clk k = false end.

(** Time does not run backwards: once late, always late. *)
Definition steady (e : env) : Prop :=
  match clock e with None => True | Some clk => forall i j, i <= j -> clk i = true -> clk j = true end.

(** The condition under which C14 is stated: a sorting std::sort and, for lower_bound 0, a monotone clock. *)
Definition lawful (e : env) (lb : nat) : Prop := permutes e /\ (1 <= lb \/ steady e).

(** Between two calls all scratch memory is zero and released. *)
Definition released (p : pygraph) : Prop :=
  exists g, p_G p = Some g /\ search_cur g = search_start g
    /\ forall i, search_start g <= i -> nth i (edge_bits g) 0%N = 0%N.

(** The number of vertices adjacent to [v]. *)
Definition degree (adj : nat -> nat -> Prop) (v d : nat) : Prop :=
  exists l, NoDup l /\ (forall u, In u l <-> adj v u) /\ length l = d.

(** Vertex 1 is in [c], and no vertex of [c] has a smaller degree. *)
Definition first_at_1 (adj : nat -> nat -> Prop) (c : list nat) : Prop :=
  In 1 c /\ forall u d1 du, In u c -> degree adj 1 d1 -> degree adj u du -> d1 <= du.

(** The first [i] cliques of an iterator (fewer when it stops before). *)
Fixpoint nexts (i : nat) (lr : bool) (p : pygraph) (en : enum) : outcome (pygraph * enum * list (list nat)) :=
  match i with
  | 0 => Ok (p, en, [])
  | S i =>
      '(p, en, r) <- next_clique lr p en;;
      match r with
      | Raise _ => Ok (p, en, [])
      | Ret c => '(p, en, l) <- nexts i lr p en;; Ok (p, en, c :: l)
      end
  end.

(** [history p q]: the object [p] has become [q] by calls of get_max_clique (whatever their outcome), reset_search,
    list(all_cliques(k)), and steps of iterators of size 0 or 1, which may be left unfinished. *)
Inductive history (p : pygraph) : pygraph -> Prop :=
| h_start : history p p
| h_get q e lb ub heur dfs cont q' r :
    history p q -> lawful e lb -> get_max_clique e q lb ub heur dfs cont = Ok (q', r) -> history p q'
| h_reset q q' : history p q -> reset_search q = Ok q' -> history p q'
| h_all q lr k fuel q' en l : history p q -> drain fuel lr q (new_enum k) = Ok (q', en, l) -> history p q'
| h_small q lr en q' en' r : history p q -> e_size en <= 1 -> next_clique lr q en = Ok (q', en', r) -> history p q'.

(** A history of calls that none of the search's cut-offs touches: no clock runs out and no upper bound is below the
    size of some clique. Lower bounds are arbitrary, including unattainable ones. *)
Inductive unhurried (n : nat) (adj : nat -> nat -> Prop) (p : pygraph) : pygraph -> Prop :=
| u_start : unhurried n adj p p
| u_get q e lb ub heur dfs cont q' r :
    unhurried n adj p q -> permutes e -> never_late e -> (forall d, clique n adj d -> length d <= ub) ->
    get_max_clique e q lb ub heur dfs cont = Ok (q', r) -> unhurried n adj p q'
| u_reset q q' : unhurried n adj p q -> reset_search q = Ok q' -> unhurried n adj p q'
| u_all q lr k fuel q' en l : unhurried n adj p q -> drain fuel lr q (new_enum k) = Ok (q', en, l) -> unhurried n adj p q'
| u_small q lr en q' en' r : unhurried n adj p q -> e_size en <= 1 -> next_clique lr q en = Ok (q', en', r) -> unhurried n adj p q'.

(** ** Correspondence graphs. The match of element i of set 1 with element j of set 2 (n2 elements) is vertex i * n2 + j + 1. *)
Definition vid (n2 i j : nat) : nat := i * n2 + j + 1.

(** Python: v in G._vertex_neighbors(u). *)
Definition neighbour (p : pygraph) (u v : nat) : Prop := exists l, vertex_neighbors p u = Ok (Ret l) /\ In v l.

(** std::sort on a distance table: increasing distances, ties in any order. *)
Definition sorts_dists (srt : list pdist -> list pdist) : Prop :=
  forall l, Permutation (srt l) l /\ StronglySorted (fun x y => d_dist x <= d_dist y)%Z (srt l).

(** The distance table of a set, and the edge vector of a built graph, fit in memory. *)
Definition table_fits (S : mset) : Prop := fits (m_n S * m_n S).
Definition edges_fit (q : pygraph) : Prop := fits (p_nvert q + 1 + 2 * p_nedges q).

(** A metric declared symmetric is symmetric. *)
Definition honest (S : mset) : Prop := m_sym S = true -> forall i j, m_d S i j = m_d S j i.

(** Two distinct elements of a set. *)
Definition two (S : mset) (i j : nat) : Prop := i < m_n S /\ j < m_n S /\ i <> j.

(** The distance [t] lies outside [a - eps, a + eps], but no distance of the set lies between it and the interval. *)
Definition next_to (S : mset) (eps a t : Z) : Prop :=
  (t < a - eps /\ forall k l, two S k l -> m_d S k l <= t \/ a - eps < m_d S k l)%Z
  \/ (a + eps < t /\ forall k l, two S k l -> t <= m_d S k l \/ m_d S k l < a + eps)%Z.

(** The same for an interval with ends [lo] and [hi]. *)
Definition past (S : mset) (lo hi t : Z) : Prop :=
  (t < lo /\ forall k l, two S k l -> m_d S k l <= t \/ lo < m_d S k l)%Z
  \/ (hi < t /\ forall k l, two S k l -> t <= m_d S k l \/ m_d S k l < hi)%Z.

(** The distance between [j] and [j'] is not that of any other pair (the reversed pair is the same pair if the metric is
    declared symmetric). *)
Definition only (S : mset) (j j' : nat) : Prop :=
  forall k l, two S k l -> m_d S k l = m_d S j j' -> (k = j /\ l = j') \/ (m_sym S = true /\ k = j' /\ l = j).

(** Rounding, as far as most theorems are concerned: order is kept. *)
Definition rises (rnd : Z -> Z) : Prop := forall a b, (a <= b)%Z -> (rnd a <= rnd b)%Z.

(** [corr_graph n1 n2 q]: [q] is a new object on which one of the build functions has been called, with sets (or graphs)
    of [n1] and [n2] elements. *)
Inductive corr_graph (n1 n2 : nat) (q : pygraph) : Prop :=
| cg_metric rnd srt S1 S2 eps : m_n S1 = n1 -> m_n S2 = n2 -> sorts_dists srt -> table_fits S2 -> rises rnd ->
    build_edges_metric_only_r rnd srt new_pygraph S1 S2 eps = Ok (Ret q) -> corr_graph n1 n2 q
| cg_both rnd srt S1 S2 eps f : m_n S1 = n1 -> m_n S2 = n2 -> sorts_dists srt -> table_fits S2 -> rises rnd ->
    build_edges_r rnd srt new_pygraph S1 S2 eps f = Ok (Ret q) -> corr_graph n1 n2 q
| cg_condition f : build_edges_condition_only new_pygraph n1 n2 f = Ok (Ret q) -> corr_graph n1 n2 q
| cg_iso s1 s2 adj1 adj2 : made s1 n1 adj1 -> made s2 n2 adj2 ->
    build_edges_for_iso new_pygraph s1 s2 = Ok (Ret q) -> corr_graph n1 n2 q.

(** The index lists [a], [b] pair elements of two sets one to one. *)
Definition matching (n1 n2 : nat) (a b : list nat) : Prop :=
  length a = length b /\ NoDup a /\ NoDup b /\ (forall i, In i a -> i < n1) /\ (forall j, In j b -> j < n2).

(** Pairwise adjacent matches. *)
Definition compatible (p : pygraph) (n2 : nat) (a b : list nat) : Prop := forall k l, k < length a -> l < length a -> k <> l ->
  neighbour p (vid n2 (nth k a 0) (nth k b 0)) (vid n2 (nth l a 0) (nth l b 0)).

(** A partial map from the vertices of graph 2 to those of graph 1, listed as b_k |-> a_k: injective, edges to edges. *)
Definition embedding (n1 : nat) (adj1 : nat -> nat -> Prop) (n2 : nat) (adj2 : nat -> nat -> Prop) (a b : list nat) : Prop :=
  length a = length b /\ NoDup a /\ NoDup b
  /\ (forall x, In x a -> 1 <= x <= n1) /\ (forall x, In x b -> 1 <= x <= n2)
  /\ forall k l, k < length a -> l < length a -> adj2 (nth k b 0) (nth l b 0) -> adj1 (nth k a 0) (nth l a 0).
