(** MExt: model of templates/{pair_dist,relset,ext_template}.hpp, of graph.cpp iso_edges, ext/Isograph.cpp and of the
    correspondence iterator: the correspondence graphs.

    Distances and epsilon are exact numbers: elements of [Z]. Any finite table of rationals is such a table up to scaling
    and every operation below (subtraction of epsilon, addition of 2 * epsilon, comparisons) commutes with scaling.
    Rounding of doubles, NaN and callbacks that raise are not modelled; callbacks are functions of the indices. *)
From Verif Require Import Base MBits MUtils MGraph MHeur MStack MRec MEnum MApi.
Local Open Scope nat_scope.

(** pair_dist.hpp:12-28 *)
Record pdist : Type := mkPD { d_fst : nat; d_snd : nat; d_dist : Z }.

(** pair_dist.hpp:44-54, the while loop of binary_find2; [mid] is recomputed from [beg] and [end] at the loop head, which is
    where it is next used. Indices are formed modulo 2^64; a read outside [a] is undefined. 65 turns suffice (theorem). *)
Fixpoint bf2_loop (fuel : nat) (a : list pdist) (val : Z) (beg fin loc : Z) : outcome (Z * Z) :=
  match fuel with
  | 0 => OutOfFuel
  | S f =>
      if (beg <=? fin)%Z then
        let mid := wrap (beg + Z.shiftr (wrap (fin - beg)) 1) in
        x <- rdz a mid;;
        if (d_dist x =? val)%Z then Ok (1%Z, mid)
        else if (d_dist x <? val)%Z then bf2_loop f a val (wrap (mid + 1)) fin mid
        else bf2_loop f a val beg (wrap (mid - 1)) mid
      else Ok (0%Z, loc)
  end.

(** pair_dist.hpp:30-56 binary_find2; [loc] is the value of the reference argument at the call. Result: (returned, loc). *)
Definition binary_find2 (a : list pdist) (n : nat) (val loc : Z) : outcome (Z * Z) :=
  let fin := wrap (Z.of_nat n - 1) in
  xe <- rdz a fin;;
  if (d_dist xe <? val)%Z then Ok ((-1)%Z, fin)
  else
    xb <- rdz a 0%Z;;
    if (val <? d_dist xb)%Z then Ok (0%Z, 0%Z)
    else bf2_loop 65 a val 0%Z fin loc.

(** relset.h members (without the callback) *)
Record relset : Type := mkR { rs_n : nat; rs_sym : bool; rs_dists : list pdist }.

(** relset.hpp:18-21; ext_template.hpp:38-39. With n = 0 the factor n - 1 wraps around in C++, but the product is 0. *)
Definition dist_len (sym : bool) (n : nat) : nat := if sym then n * (n - 1) / 2 else n * (n - 1).

(** relset.hpp:24-40 the constructor and fill_dists; [d i j] is delfunc(x, i, j), [srt] is std::sort with operator<. *)
Definition fill_dists (srt : list pdist -> list pdist) (sym : bool) (n : nat) (d : nat -> nat -> Z) : outcome relset :=
  '(l, _) <- for_ 0 n
    (fun i s =>
       for_ (if sym then i + 1 else 0) n
         (fun j '(l, count) =>
            if j =? i then Ok (l, count)
            else l <- wr l count (mkPD i j (d i j));; Ok (l, count + 1))
         s)
    (repeat (mkPD 0 0 0%Z) (dist_len sym n), 0);;
  Ok (mkR n sym (srt l)).

(** Loops whose body only push_backs: the concatenation of what the turns push. *)
Fixpoint collect {X Y : Type} (f : X -> outcome (list Y)) (l : list X) : outcome (list Y) :=
  match l with
  | [] => Ok []
  | x :: r => a <- f x;; b <- collect f r;; Ok (a ++ b)
  end.

(** ext_template.hpp:59, 60: vertex number of the match of element [i] of set 1 with element [j] of set 2. *)
Definition match_id (N i j : nat) : nat := i * N + j + 1.

(** ext_template.hpp:131-158: what one turn of the inner loop adds. An entry (v1, v2) of the result stands for the
    push_backs of (v1, v2) and (v2, v1) and for n_edges++. *)
Definition efr_turn (cfunc : nat -> nat -> nat -> nat -> bool) (both_asym : bool) (N : nat) (x y : pdist) : pairs :=
  (if cfunc (d_fst x) (d_snd x) (d_fst y) (d_snd y)
   then [(match_id N (d_fst x) (d_fst y), match_id N (d_snd x) (d_snd y))] else [])
  ++ (if both_asym then []
      else if cfunc (d_fst x) (d_snd x) (d_snd y) (d_fst y)
           then [(match_id N (d_snd x) (d_fst y), match_id N (d_fst x) (d_snd y))] else []).

(** ext_template.hpp:59-77, likewise *)
Definition efs_turn (both_asym : bool) (N : nat) (x y : pdist) : pairs :=
  [(match_id N (d_fst x) (d_fst y), match_id N (d_snd x) (d_snd y))]
  ++ (if both_asym then [] else [(match_id N (d_snd x) (d_fst y), match_id N (d_fst x) (d_snd y))]).

(** ext_template.hpp:131-158 again, for a condition function that may itself be undefined (the C++ lambda of Aligngraph.cpp). *)
Definition efr_turn_m (cfunc : nat -> nat -> nat -> nat -> outcome bool) (both_asym : bool) (N : nat) (x y : pdist) : outcome pairs :=
  c1 <- cfunc (d_fst x) (d_snd x) (d_fst y) (d_snd y);;
  let l1 := if c1 then [(match_id N (d_fst x) (d_fst y), match_id N (d_snd x) (d_snd y))] else [] in
  if both_asym then Ok l1
  else
    c2 <- cfunc (d_fst x) (d_snd x) (d_snd y) (d_fst y);;
    Ok (l1 ++ (if c2 then [(match_id N (d_snd x) (d_fst y), match_id N (d_fst x) (d_snd y))] else [])).

(** ext_template.hpp:46-79 and 118-160: the outer loop over the indices [idx] of s1.dists; [turn] is the inner body. The ends
    of the interval are doubles: [rnd] rounds the exact difference (line 48) and the exact sum (line 49; 2 * epsilon is exact). *)
Fixpoint efr_loop (rnd : Z -> Z) (turn : pdist -> pdist -> outcome pairs) (s1 s2 : list pdist) (len2 : nat) (eps : Z) (idx : list nat)
    (lb_loc ub_loc : Z) : outcome pairs :=
  match idx with
  | [] => Ok []
  | i :: r =>
      x <- rd s1 i;;
      let cur_lb := rnd (d_dist x - eps)%Z in
      let cur_ub := rnd (cur_lb + 2 * eps)%Z in
      '(found1, lb_loc) <- binary_find2 s2 len2 cur_lb lb_loc;;
      if (found1 =? -1)%Z then Ok []
      else
        '(found2, ub_loc) <- binary_find2 s2 len2 cur_ub ub_loc;;
        let ub_loc := if (found2 =? -1)%Z then wrap (Z.of_nat len2 - 1) else ub_loc in
        a <- collect (fun j => y <- rd s2 j;; turn x y)
               (seq (Z.to_nat lb_loc) (Z.to_nat ub_loc + 1 - Z.to_nat lb_loc));;
        b <- efr_loop rnd turn s1 s2 len2 eps r lb_loc ub_loc;;
        Ok (a ++ b)
  end.

(** ext_template.hpp:15-82 edges_from_relsets and 86-163 efr_condition, up to the inner body *)
Definition relset_rows (rnd : Z -> Z) (turn : pdist -> pdist -> outcome pairs) (s1 s2 : relset) (eps : Z) : outcome (exc pairs) :=
  if (rs_n s1 =? 0) || (rs_n s2 =? 0) then Ok (Raise EEmptySet)
  else
    let len1 := dist_len (rs_sym s1) (rs_n s1) in
    let len2 := dist_len (rs_sym s2) (rs_n s2) in
    l <- efr_loop rnd turn (rs_dists s1) (rs_dists s2) len2 eps (seq 0 len1) 0%Z (Z.of_nat len2);;
    Ok (Ret l).

Definition edges_from_relsets_r (rnd : Z -> Z) (s1 s2 : relset) (eps : Z) : outcome (exc pairs) :=
  relset_rows rnd (fun x y => Ok (efs_turn (negb (rs_sym s1) && negb (rs_sym s2)) (rs_n s2) x y)) s1 s2 eps.

Definition efr_condition_r (rnd : Z -> Z) (s1 s2 : relset) (eps : Z) (cfunc : nat -> nat -> nat -> nat -> bool) : outcome (exc pairs) :=
  relset_rows rnd (fun x y => Ok (efr_turn cfunc (negb (rs_sym s1) && negb (rs_sym s2)) (rs_n s2) x y)) s1 s2 eps.

(** The same with sums that are exact *)
Definition exact (x : Z) : Z := x.
Definition edges_from_relsets : relset -> relset -> Z -> outcome (exc pairs) := edges_from_relsets_r exact.
Definition efr_condition : relset -> relset -> Z -> (nat -> nat -> nat -> nat -> bool) -> outcome (exc pairs) := efr_condition_r exact.

Definition efr_condition_m (s1 s2 : relset) (eps : Z) (cfunc : nat -> nat -> nat -> nat -> outcome bool) : outcome (exc pairs) :=
  relset_rows exact (efr_turn_m cfunc (negb (rs_sym s1) && negb (rs_sym s2)) (rs_n s2)) s1 s2 eps.

(** ext_template.hpp:28-34, 62-66, 183: load the self loops 0..n (resize) and the pushed pairs. edges.first is never empty. *)
Definition load_rows (p : pygraph) (n : nat) (rows : pairs) : outcome pygraph :=
  load_graph p n (length rows) (push_cap (2 * length rows) (n + 1) (n + 1))
    (self_loops n ++ flat_map (fun '(u, v) => both_ways u v) rows).

(** One set of a correspondence graph: its size, its metric and the symmetry flag given for it. *)
Record mset : Type := mkM { m_n : nat; m_d : nat -> nat -> Z; m_sym : bool }.

(** ext_template.hpp:165-185 *)
Definition build_edges_metric_only_r (rnd : Z -> Z) (srt : list pdist -> list pdist) (p : pygraph) (S1 S2 : mset) (eps : Z)
  : outcome (exc pygraph) :=
  s1 <- fill_dists srt (m_sym S1) (m_n S1) (m_d S1);;
  s2 <- fill_dists srt (m_sym S2) (m_n S2) (m_d S2);;
  r <- edges_from_relsets_r rnd s1 s2 eps;;
  match r with
  | Raise e => Ok (Raise e)
  | Ret rows => q <- load_rows p (m_n S1 * m_n S2) rows;; Ok (Ret q)
  end.

(** ext_template.hpp:245-271; [cfunc i j i2 j2] is cfunc(pts1, i, j, pts2, i2, j2). *)
Definition build_edges_r (rnd : Z -> Z) (srt : list pdist -> list pdist) (p : pygraph) (S1 S2 : mset) (eps : Z)
    (cfunc : nat -> nat -> nat -> nat -> bool) : outcome (exc pygraph) :=
  s1 <- fill_dists srt (m_sym S1) (m_n S1) (m_d S1);;
  s2 <- fill_dists srt (m_sym S2) (m_n S2) (m_d S2);;
  r <- efr_condition_r rnd s1 s2 eps cfunc;;
  match r with
  | Raise e => Ok (Raise e)
  | Ret rows => q <- load_rows p (m_n S1 * m_n S2) rows;; Ok (Ret q)
  end.

(** Both with exact sums *)
Definition build_edges_metric_only : (list pdist -> list pdist) -> pygraph -> mset -> mset -> Z -> outcome (exc pygraph) :=
  build_edges_metric_only_r exact.
Definition build_edges : (list pdist -> list pdist) -> pygraph -> mset -> mset -> Z -> (nat -> nat -> nat -> nat -> bool) -> outcome (exc pygraph) :=
  build_edges_r exact.

(** ext_template.hpp:245-271 with a condition function that may be undefined *)
Definition build_edges_m (srt : list pdist -> list pdist) (p : pygraph) (S1 S2 : mset) (eps : Z)
    (cfunc : nat -> nat -> nat -> nat -> outcome bool) : outcome (exc pygraph) :=
  s1 <- fill_dists srt (m_sym S1) (m_n S1) (m_d S1);;
  s2 <- fill_dists srt (m_sym S2) (m_n S2) (m_d S2);;
  r <- efr_condition_m s1 s2 eps cfunc;;
  match r with
  | Raise e => Ok (Raise e)
  | Ret rows => q <- load_rows p (m_n S1 * m_n S2) rows;; Ok (Ret q)
  end.

(** ext_template.hpp:208-238: the four nested loops. *)
Definition condition_rows (n1 n2 : nat) (cfunc : nat -> nat -> nat -> nat -> bool) : outcome pairs :=
  collect (fun i1 =>
    collect (fun i2 =>
      collect (fun j1 =>
        collect (fun j2 =>
          if cfunc i1 i2 j1 j2
          then Ok [(match_id n2 i1 j1, match_id n2 i2 j2); (match_id n2 i2 j1, match_id n2 i1 j2)]
          else Ok [])
        (seq (j1 + 1) (n2 - (j1 + 1))))
      (seq 0 n2))
    (seq (i1 + 1) (n1 - (i1 + 1))))
  (seq 0 n1).

(** ext_template.hpp:187-243 *)
Definition build_edges_condition_only (p : pygraph) (n1 n2 : nat) (cfunc : nat -> nat -> nat -> nat -> bool)
  : outcome (exc pygraph) :=
  rows <- condition_rows n1 n2 cfunc;;
  q <- load_rows p (n1 * n2) rows;;
  Ok (Ret q).

(** graph.cpp:188-225 iso_edges: the nested loops; BFResult FOUND is 1. *)
Definition iso_rows (g1 g2 : graph) : outcome pairs :=
  collect (fun i1 =>
    collect (fun i2 =>
      '(f1, _) <- find_if_neighbors g1 i1 i2;;
      collect (fun j1 =>
        collect (fun j2 =>
          '(f2, _) <- find_if_neighbors g2 j1 j2;;
          if negb f1 && f2 then Ok []
          else Ok [((i1 - 1) * (n_vert g2 - 1) + (j1 - 1) + 1, (i2 - 1) * (n_vert g2 - 1) + (j2 - 1) + 1);
                   ((i2 - 1) * (n_vert g2 - 1) + (j1 - 1) + 1, (i1 - 1) * (n_vert g2 - 1) + (j2 - 1) + 1)])
        (seq (j1 + 1) (n_vert g2 - (j1 + 1))))
      (seq 1 (n_vert g2 - 1)))
    (seq (i1 + 1) (n_vert g1 - (i1 + 1))))
  (seq 1 (n_vert g1 - 1)).

(** Isograph.cpp:7-20 build_edges_for_iso; pygraph.cpp:313-318; graph.cpp:173-187. *)
Definition build_edges_for_iso (p s1 s2 : pygraph) : outcome (exc pygraph) :=
  if (p_nvert s1 =? 0) || (p_nvert s2 =? 0) then Ok (Raise EEmptySet)
  else match p_G s1, p_G s2 with
       | Some g1, Some g2 =>
           rows <- iso_rows g1 g2;;
           q <- load_rows p ((n_vert g1 - 1) * (n_vert g2 - 1)) rows;;
           Ok (Ret q)
       | _, _ => UB NullDeref
       end.

(** pyiterator.cpp:20-30 CorrespondenceIterator::next_clique *)
Definition next_correspondence (lr : bool) (len2 : nat) (p : pygraph) (en : enum)
  : outcome (pygraph * enum * exc (list nat * list nat)) :=
  '(p, en, r) <- next_clique lr p en;;
  match r with
  | Raise e => Ok (p, en, Raise e)
  | Ret c => x <- correspondence2 len2 c;; Ok (p, en, x)
  end.
