(** MGen: model of the wrappers wrappers/{_gen_graph,a2agraph,a2lgraph,l2agraph,l2lgraph}.py, of the overloads they call
    (templates/wrap_template.hpp) and of the default metrics.

    Elements are values of any type; a set is a list of elements. Metrics and conditions are functions of the indices, as in
    MExt; epsilon and distances are integers (see MExt). Callbacks that raise are not modelled. *)
From Verif Require Import Base MBits MUtils MGraph MHeur MStack MRec MEnum MApi MExt.
Local Open Scope nat_scope.

Notation metric := (nat -> nat -> Z).

(** self.S1, self.S2. [gs_euclid] is [Some d] if the object is an array of doubles, so that pybind11 selects the overload
    for Eigen::Ref (core.cpp:22-25, wrap_template.hpp:23; py::object accepts everything else); [d] gives the distances
    euc_dist0 of its rows (eigen_distance.hpp:12-17). a2agraph.py:29, 30, a2lgraph.py:31 and l2agraph.py:32 convert to such an array. *)
Record gset (E : Type) : Type := mkGS { gs_elems : list E; gs_euclid : option metric }.
Arguments mkGS {E} gs_elems gs_euclid.
Arguments gs_elems {E} g.
Arguments gs_euclid {E} g.

(** _gen_graph.py:26-36: the attributes. A metric that is None in Python is [None]. *)
Record gengraph (E1 E2 : Type) : Type := mkGG {
  gg_graph : pygraph;
  gg_S1 : gset E1; gg_S2 : gset E2;
  gg_d1 : option metric; gg_d2 : option metric;
  gg_sym1 : bool; gg_sym2 : bool;
  gg_eps : Z
}.
Arguments mkGG {E1 E2}.
Arguments gg_graph {E1 E2} g.
Arguments gg_S1 {E1 E2} g.
Arguments gg_S2 {E1 E2} g.
Arguments gg_d1 {E1 E2} g.
Arguments gg_d2 {E1 E2} g.
Arguments gg_sym1 {E1 E2} g.
Arguments gg_sym2 {E1 E2} g.
Arguments gg_eps {E1 E2} g.

Section Gen.
  Context {E1 E2 : Type}.

  (** _gen_graph.py:26-36 followed by a2agraph.py:23-38, a2lgraph.py:25-50, l2agraph.py:25-47 or l2lgraph.py:23-46: all four
      keep d2 only if d1 is given. [eps] stands for 1.1 (or the value assigned to .epsilon before building). *)
  Definition gen_init (S1 : gset E1) (S2 : gset E2) (d1 d2 : option metric) (sym1 sym2 : bool) (eps : Z) : gengraph E1 E2 :=
    mkGG new_pygraph S1 S2 d1 (match d1 with Some _ => d2 | None => None end) sym1 sym2 eps.

  Definition len1 (g : gengraph E1 E2) : nat := length (gs_elems (gg_S1 g)).
  Definition len2 (g : gengraph E1 E2) : nat := length (gs_elems (gg_S2 g)).

  Definition with_graph (g : gengraph E1 E2) (p : pygraph) : gengraph E1 E2 :=
    mkGG p (gg_S1 g) (gg_S2 g) (gg_d1 g) (gg_d2 g) (gg_sym1 g) (gg_sym2 g) (gg_eps g).

  (** _gen_graph.py:49-53, 83-87 and wrap_template.hpp:18-46, 53-71: the function objects and flags that reach the template.
      Absent arguments get the defaults of ext_template.h:75-94: dummy_comparison (the Euclidean distance for arrays,
      A2Agraph.cpp:7-12; [None] stands for the one that throws, ext_template.h:16-21) and symmetric = true. *)
  Definition chosen1 (g : gengraph E1 E2) : option metric * bool :=
    match gg_d1 g with
    | Some f => (Some f, gg_sym1 g)
    | None => (gs_euclid (gg_S1 g), true)
    end.

  Definition chosen2 (g : gengraph E1 E2) : option metric * bool :=
    match gg_d1 g, gg_d2 g with
    | Some _, Some f => (Some f, gg_sym2 g)
    | _, _ => (gs_euclid (gg_S2 g), true)
    end.

  (** relset.hpp:24-40 with such a function object; the throwing one is called as soon as there are two elements. *)
  Definition fill_chosen (srt : list pdist -> list pdist) (c : option metric * bool) (n : nat) : outcome (exc relset) :=
    match fst c with
    | Some f => r <- fill_dists srt (snd c) n f;; Ok (Ret r)
    | None => if n <? 2 then r <- fill_dists srt (snd c) n (fun _ _ => 0%Z);; Ok (Ret r) else Ok (Raise ENoMetric)
    end.

  (** ext_template.hpp:165-185 and 245-271; [extract] is edges_from_relsets or efr_condition. *)
  Definition gen_fill (srt : list pdist -> list pdist) (g : gengraph E1 E2) (extract : relset -> relset -> outcome (exc pairs))
    : outcome (exc (gengraph E1 E2)) :=
    r1 <- fill_chosen srt (chosen1 g) (len1 g);;
    match r1 with
    | Raise e => Ok (Raise e)
    | Ret s1 =>
        r2 <- fill_chosen srt (chosen2 g) (len2 g);;
        match r2 with
        | Raise e => Ok (Raise e)
        | Ret s2 =>
            r <- extract s1 s2;;
            match r with
            | Raise e => Ok (Raise e)
            | Ret rows => q <- load_rows (gg_graph g) (len1 g * len2 g) rows;; Ok (Ret (with_graph g q))
            end
        end
    end.

  (** _gen_graph.py:38-54 build_edges; [rnd] as in MExt *)
  Definition gen_build_edges_r (rnd : Z -> Z) (srt : list pdist -> list pdist) (g : gengraph E1 E2) : outcome (exc (gengraph E1 E2)) :=
    gen_fill srt g (fun s1 s2 => edges_from_relsets_r rnd s1 s2 (gg_eps g)).

  (** _gen_graph.py:56-88 build_edges_with_condition *)
  Definition gen_build_with_condition_r (rnd : Z -> Z) (srt : list pdist -> list pdist) (g : gengraph E1 E2)
      (cfunc : nat -> nat -> nat -> nat -> bool) (use_cfunc_only : bool) : outcome (exc (gengraph E1 E2)) :=
    if use_cfunc_only then
      r <- build_edges_condition_only (gg_graph g) (len1 g) (len2 g) cfunc;;
      match r with
      | Raise e => Ok (Raise e)
      | Ret q => Ok (Ret (with_graph g q))
      end
    else gen_fill srt g (fun s1 s2 => efr_condition_r rnd s1 s2 (gg_eps g) cfunc).

  (** The same with exact ends of the interval *)
  Definition gen_build_edges : (list pdist -> list pdist) -> gengraph E1 E2 -> outcome (exc (gengraph E1 E2)) := gen_build_edges_r exact.
  Definition gen_build_with_condition : (list pdist -> list pdist) -> gengraph E1 E2 -> (nat -> nat -> nat -> nat -> bool) -> bool ->
      outcome (exc (gengraph E1 E2)) := gen_build_with_condition_r exact.

  (** _gen_graph.py:93-144 get_correspondence with return_indices=True (time_limit: see MApi) *)
  Definition gen_get_indices (e : env) (g : gengraph E1 E2) (lb ub : nat) (heur dfs cont : bool)
    : outcome (gengraph E1 E2 * exc (list nat * list nat)) :=
    '(p, r) <- get_correspondence e (gg_graph g) (len2 g) lb ub heur dfs cont;;
    Ok (with_graph g p, r).

  (** [S[x] for x in idx], and the numpy indexing S[idx]: a negative index is impossible, one past the end raises IndexError *)
  Fixpoint pick_elems {E : Type} (l : list E) (idx : list nat) : exc (list E) :=
    match idx with
    | [] => Ret []
    | i :: r =>
        match nth_error l i with
        | None => Raise EIndex
        | Some x => match pick_elems l r with Ret xs => Ret (x :: xs) | Raise e => Raise e end
        end
    end.

  (** a2agraph.py:40, 41, a2lgraph.py:52, 53, l2agraph.py:49, 50, l2lgraph.py:48, 49 _format_correspondence *)
  Definition gen_format (g : gengraph E1 E2) (ab : list nat * list nat) : exc (list E1 * list E2) :=
    match pick_elems (gs_elems (gg_S1 g)) (fst ab) with
    | Raise e => Raise e
    | Ret x => match pick_elems (gs_elems (gg_S2 g)) (snd ab) with Raise e => Raise e | Ret y => Ret (x, y) end
    end.

  (** _gen_graph.py:93-144 get_correspondence with return_indices=False *)
  Definition gen_get_elements (e : env) (g : gengraph E1 E2) (lb ub : nat) (heur dfs cont : bool)
    : outcome (gengraph E1 E2 * exc (list E1 * list E2)) :=
    '(g, r) <- gen_get_indices e g lb ub heur dfs cont;;
    match r with
    | Raise x => Ok (g, Raise x)
    | Ret ab => Ok (g, gen_format g ab)
    end.

  (** _gen_graph.py:10-22, 146-169 all_correspondences: one step of the iterator with return_indices=True *)
  Definition gen_next_indices (lr : bool) (g : gengraph E1 E2) (en : enum)
    : outcome (gengraph E1 E2 * enum * exc (list nat * list nat)) :=
    '(p, en, r) <- next_correspondence lr (len2 g) (gg_graph g) en;;
    Ok (with_graph g p, en, r).

  (** ... and with return_indices=False (WrappedIterator.__next__) *)
  Definition gen_next_elements (lr : bool) (g : gengraph E1 E2) (en : enum)
    : outcome (gengraph E1 E2 * enum * exc (list E1 * list E2)) :=
    '(g, en, r) <- gen_next_indices lr g en;;
    match r with
    | Raise x => Ok (g, en, Raise x)
    | Ret ab => Ok (g, en, gen_format g ab)
    end.
End Gen.
